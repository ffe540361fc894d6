(** Subscriptions of a session. *)
From Coq Require Import NArith ZArith Arith List Lia Bool.
From Coq Require Import Init.Byte Strings.Byte.
From Verif.Model Require Import Base ErrorCode Stream Frame FrameSys TrackSys Map BroadcastSys TrackUse SubscriberSys.
From Verif.Spec Require Import SubscriberSpec.
From Verif.Proofs Require Import TableP MapP BroadcastP.
Import ListNotations.
Open Scope nat_scope.

Lemma srun_snoc ops : forall s o, srun s (ops ++ [o]) =
  let (s1, tr) := srun s ops in let (s2, x) := sstep s1 o in (s2, tr ++ [(o, x)]).
Proof.
  induction ops as [|a ops IH]; intros s o; cbn [srun app].
  - destruct (sstep s o); reflexivity.
  - destruct (sstep s a) as [s1 x]. rewrite IH. destruct (srun s1 ops) as [s2 tr].
    destruct (sstep s2 o); reflexivity.
Qed.

Section NMap.
  Context {V : Type}.
  Lemma nlookup_nremove k j (m : list (N * V)) : nlookup j (nremove k m) = if N.eqb j k then None else nlookup j m.
  Proof.
    induction m as [|[i v] m IH]; cbn; [destruct (N.eqb j k); reflexivity|].
    destruct (N.eqb_spec k i) as [->|K]; cbn; rewrite IH.
    - destruct (N.eqb_spec j i) as [->|J]; reflexivity.
    - destruct (N.eqb_spec j i) as [->|J]; [|reflexivity]. destruct (N.eqb_spec i k); [congruence|reflexivity].
  Qed.
  Lemma nlookup_nput k v j (m : list (N * V)) : nlookup j (nput k v m) = if N.eqb j k then Some v else nlookup j m.
  Proof. unfold nput. cbn [nlookup]. rewrite nlookup_nremove. destruct (N.eqb j k); reflexivity. Qed.
End NMap.

Definition wrap (k : nat) : N := (N.of_nat k mod 2 ^ 64)%N.

Lemma wrap_inj j k n : (N.of_nat n <= 2 ^ 64)%N -> j < n -> k < n -> wrap j = wrap k -> j = k.
Proof. unfold wrap. intros. rewrite !N.mod_small in H2 by lia. lia. Qed.
Lemma wrap_S k : ((wrap k + 1) mod 2 ^ 64)%N = wrap (S k).
Proof. unfold wrap. rewrite N.add_mod_idemp_l by discriminate. f_equal. lia. Qed.

Definition stands (b : subn) : standing :=
  match sb_phase b with
  | Spawned => Unknown | Registered => Open (option_map g_seq (sb_latest b)) | Over => Closing | Gone => Closed
  end.
Definition registered (b : subn) : bool := match sb_phase b with Registered | Over => true | _ => false end.

(** State only. *)
Record swf (s : ssys) : Prop := {
  sw_next : ss_next s = wrap (length (ss_subs s));
  sw_id : forall k b, nth_error (ss_subs s) k = Some b -> sb_id b = wrap k;
  sw_closed : forall k b, nth_error (ss_subs s) k = Some b ->
    match sb_phase b with Spawned => sb_latest b = None /\ sb_closed b = None | Registered => sb_closed b = None | Over | Gone => sb_closed b <> None end;
  sw_map : (N.of_nat (length (ss_subs s)) <= 2 ^ 64)%N -> forall k b, nth_error (ss_subs s) k = Some b ->
    nlookup (wrap k) (ss_map s) = if registered b then Some k else None;
  sw_in : forall id k, nlookup id (ss_map s) = Some k -> id = wrap k /\ exists b, nth_error (ss_subs s) k = Some b /\ registered b = true;
  sw_bmap : ss_bmap s = [] }.

(** And the trace. *)
Record strc (s : ssys) (tr : list sevent) : Prop := {
  st_ids : ids tr = map wrap (seq 0 (length (ss_subs s)));
  st_stand : forall k, standing_of k tr = match nth_error (ss_subs s) k with Some b => stands b | None => Unknown end;
  st_cons : forall p b, In b (consumed p tr) -> b < length (ss_bcasts s);
  st_dup : forall p, NoDup (consumed p tr) }.

Lemma ids_snoc tr e : ids (tr ++ [e]) = ids tr ++ ids_of e.
Proof. unfold ids. rewrite flat_map_app. cbn. rewrite app_nil_r. reflexivity. Qed.
Lemma consumed_snoc p tr e : consumed p (tr ++ [e]) = consumed p tr ++ consumed_of p e.
Proof. unfold consumed. rewrite flat_map_app. cbn. rewrite app_nil_r. reflexivity. Qed.
Lemma standing_snoc k tr e : standing_of k (tr ++ [e]) = progress k (standing_of k tr) e.
Proof. unfold standing_of. rewrite fold_left_app. reflexivity. Qed.

Lemma swf_new : swf ssys_new.
Proof. split; cbn; auto; try discriminate; intros; destruct k; discriminate. Qed.
Lemma strc_new : strc ssys_new [].
Proof. split; cbn; auto; try tauto; [intros [|k]; reflexivity|constructor]. Qed.

(** One subscription replaced. *)
Lemma swf_set s k b b' m : swf s -> nth_error (ss_subs s) k = Some b -> sb_id b' = sb_id b ->
  match sb_phase b' with Spawned => sb_latest b' = None /\ sb_closed b' = None | Registered => sb_closed b' = None | Over | Gone => sb_closed b' <> None end ->
  ((N.of_nat (length (ss_subs s)) <= 2 ^ 64)%N -> forall id, nlookup id m = if N.eqb id (wrap k) then (if registered b' then Some k else None) else nlookup id (ss_map s)) ->
  (forall id j, nlookup id m = Some j -> (j = k /\ id = wrap k /\ registered b' = true) \/ (j <> k /\ nlookup id (ss_map s) = Some j)) ->
  swf (swith_map (swith_subs s (set_nth k b' (ss_subs s))) m).
Proof.
  intros W K I C M M2. pose proof (nth_error_len _ _ _ K) as L.
  assert (N0 : forall j c, nth_error (set_nth k b' (ss_subs s)) j = Some c -> (j = k /\ c = b') \/ (j <> k /\ nth_error (ss_subs s) j = Some c)).
  { intros j c. destruct (Nat.eq_dec j k) as [->|J]; [rewrite nth_error_set_eq by auto; intros [= <-]; auto|rewrite nth_error_set_ne by auto; auto]. }
  destruct W. split; cbn; rewrite ?set_nth_length; auto.
  - intros j c H. apply N0 in H. destruct H as [[-> ->]|[_ H]]; [rewrite I|]; eauto.
  - intros j c H. apply N0 in H. destruct H as [[-> ->]|[_ H]]; [exact C|exact (sw_closed0 _ _ H)].
  - intros B j c H. rewrite M by exact B. pose proof (nth_error_len _ _ _ H) as LJ. rewrite set_nth_length in LJ. apply N0 in H.
    destruct H as [[-> ->]|[J H]]; [rewrite N.eqb_refl; reflexivity|].
    destruct (N.eqb_spec (wrap j) (wrap k)) as [E|E]; [|eauto]. exfalso. apply J. eapply wrap_inj; eauto.
  - intros id j Q. apply M2 in Q. destruct Q as [(-> & -> & R)|[J Q]].
    + split; [reflexivity|]. exists b'. split; [apply nth_error_set_eq; auto|exact R].
    + apply sw_in0 in Q. destruct Q as (E & c & Q & R). split; [exact E|]. exists c. split; [rewrite nth_error_set_ne; auto|exact R].
Qed.

Lemma strc_set s tr k b b' m o x : strc s tr -> nth_error (ss_subs s) k = Some b ->
  ids_of (o, x) = [] -> (forall p, consumed_of p (o, x) = []) ->
  (forall j, progress j (standing_of j tr) (o, x) = if Nat.eqb k j then stands b' else standing_of j tr) ->
  strc (swith_map (swith_subs s (set_nth k b' (ss_subs s))) m) (tr ++ [(o, x)]).
Proof.
  intros [] K E1 E2 E3. pose proof (nth_error_len _ _ _ K) as L. split; cbn; rewrite ?set_nth_length, ?ids_snoc, ?E1, ?app_nil_r; auto.
  - intros j. rewrite standing_snoc, E3. destruct (Nat.eqb_spec k j) as [<-|N]; [rewrite nth_error_set_eq; auto|rewrite nth_error_set_ne by auto; apply st_stand0].
  - intros p c. rewrite consumed_snoc, E2, app_nil_r. apply st_cons0.
  - intros p. rewrite consumed_snoc, E2, app_nil_r. auto.
Qed.

Lemma strc_quiet s s' tr o x : strc s tr -> ss_subs s' = ss_subs s -> length (ss_bcasts s') = length (ss_bcasts s) ->
  ids_of (o, x) = [] -> (forall p, consumed_of p (o, x) = []) -> (forall j st, progress j st (o, x) = st) -> strc s' (tr ++ [(o, x)]).
Proof.
  intros [] E0 EB E1 E2 E3. split; rewrite ?E0, ?EB, ?ids_snoc, ?E1, ?app_nil_r; auto.
  - intros k. rewrite standing_snoc, E3. apply st_stand0.
  - intros p c. rewrite consumed_snoc, E2, app_nil_r. apply st_cons0.
  - intros p. rewrite consumed_snoc, E2, app_nil_r. auto.
Qed.

Lemma sstep_inv s tr o s' x : swf s -> strc s tr -> sstep s o = (s', x) -> swf s' /\ strc s' (tr ++ [(o, x)]).
Proof.
  intros W T H. destruct o as [path|b|b|k|k out|k|id sq g]; cbn [sstep] in H.
  - rewrite (sw_bmap _ W) in H. cbn in H. injection H as <- <-. split.
    + destruct W. split; cbn; auto.
    + destruct T. split; cbn; rewrite ?ids_snoc, ?app_nil_r, ?app_length; auto.
      * intros k. rewrite standing_snoc. cbn. apply st_stand0.
      * intros p b. rewrite consumed_snoc. cbn. intros K. apply in_app_or in K. destruct K as [K|K]; [apply st_cons0 in K; lia|].
        destruct (str_eqb path p); [|destruct K]. destruct K as [<-|[]]. lia.
      * intros p. rewrite consumed_snoc. cbn. destruct (str_eqb path p); [|rewrite app_nil_r; auto]. apply NoDup_snoc; auto.
        intros K. apply st_cons0 in K. lia.
  - destruct (nth_error (ss_bcasts s) b) as [[path []]|]; injection H as <- <-;
      try (split; [exact W|apply (strc_quiet s); auto]; fail).
    split.
    + destruct W. split; cbn; rewrite ?app_length; auto; cbn.
      * rewrite sw_next0, wrap_S. f_equal. lia.
      * intros k b'. rewrite nth_error_snoc. destruct (Nat.eqb_spec k (length (ss_subs s))) as [->|N]; [|eauto].
        intros [= <-]. exact sw_next0.
      * intros k b'. rewrite nth_error_snoc. destruct (Nat.eqb_spec k (length (ss_subs s))) as [->|N]; [|apply sw_closed0].
        intros [= <-]. cbn. auto.
      * intros B k b'. rewrite nth_error_snoc. destruct (Nat.eqb_spec k (length (ss_subs s))) as [->|N]; [|apply sw_map0; lia].
        intros [= <-]. cbn. destruct (nlookup (wrap (length (ss_subs s))) (ss_map s)) as [j|] eqn:Q; [|reflexivity].
        apply sw_in0 in Q. destruct Q as (Q & c & L & _). apply nth_error_len in L. exfalso. apply (wrap_inj _ _ (length (ss_subs s) + 1)) in Q; lia.
      * intros id k Q. apply sw_in0 in Q. destruct Q as (E & c & L & R). split; [exact E|]. exists c. split; [|exact R].
        rewrite nth_error_snoc. pose proof (nth_error_len _ _ _ L). destruct (Nat.eqb_spec k (length (ss_subs s))); [lia|exact L].
    + destruct T. pose proof (sw_next _ W) as NX. split; cbn; rewrite ?ids_snoc, ?app_length; auto.
      * cbn. rewrite st_ids0, seq_app, map_app, NX. reflexivity.
      * intros k. rewrite standing_snoc, nth_error_snoc. cbn. rewrite st_stand0. destruct (Nat.eqb_spec k (length (ss_subs s))) as [->|N]; [|reflexivity].
        rewrite (proj2 (nth_error_None _ _)) by lia. reflexivity.
      * intros p c. rewrite consumed_snoc. cbn. rewrite app_nil_r. apply st_cons0.
      * intros p. rewrite consumed_snoc. cbn. rewrite app_nil_r. auto.
  - destruct (nth_error (ss_bcasts s) b) as [[path []]|]; injection H as <- <-;
      try (split; [exact W|apply (strc_quiet s); auto]; fail).
    split; [|apply (strc_quiet s); auto; cbn; apply set_nth_length].
    destruct W. split; cbn; auto. rewrite sw_bmap0. reflexivity.
  - destruct (nth_error (ss_subs s) k) as [[id path [] l c]|] eqn:K; injection H as <- <-;
      try (split; [exact W|apply (strc_quiet s); auto]; fail).
    pose proof (sw_closed _ W _ _ K) as C. pose proof (sw_id _ W _ _ K) as I. cbn in C, I. subst id. split.
    + eapply swf_set; [exact W|exact K|reflexivity|exact (proj2 C)| |].
      * intros B id. rewrite nlookup_nput. reflexivity.
      * intros id j. rewrite nlookup_nput. destruct (N.eqb_spec id (wrap k)) as [->|N]; [intros [= <-]; auto|].
        intros Q. right. split; [|exact Q]. apply (sw_in _ W) in Q. intros ->. tauto.
    + eapply strc_set; [exact T|exact K|reflexivity|reflexivity|]. intros j. cbn. destruct C as [-> _]. reflexivity.
  - destruct (nth_error (ss_subs s) k) as [[id path [] l c]|] eqn:K; injection H as <- <-;
      try (split; [exact W|apply (strc_quiet s); auto]; fail).
    pose proof (sw_id _ W _ _ K) as I. cbn in I. subst id.
    assert (E : forall y, swith_subs s y = swith_map (swith_subs s y) (ss_map s)) by reflexivity. rewrite E. split.
    + eapply swf_set; [exact W|exact K|reflexivity|cbn; discriminate| |].
      * intros B id. destruct (N.eqb_spec id (wrap k)) as [->|N]; [|reflexivity]. exact (sw_map _ W B _ _ K).
      * intros id j Q. destruct (Nat.eq_dec j k) as [->|J]; [|auto]. left. apply (sw_in _ W) in Q. tauto.
    + eapply strc_set; [exact T|exact K|reflexivity|reflexivity|]. intros j. reflexivity.
  - destruct (nth_error (ss_subs s) k) as [[id path [] l c]|] eqn:K; injection H as <- <-;
      try (split; [exact W|apply (strc_quiet s); auto]; fail).
    pose proof (sw_closed _ W _ _ K) as C. pose proof (sw_id _ W _ _ K) as I. cbn in C, I. subst id. split.
    + eapply swf_set; [exact W|exact K|reflexivity|exact C| |].
      * intros B id. rewrite nlookup_nremove. reflexivity.
      * intros id j. rewrite nlookup_nremove. destruct (N.eqb_spec id (wrap k)) as [->|N]; [discriminate|].
        intros Q. right. split; [|exact Q]. apply (sw_in _ W) in Q. intros ->. tauto.
    + eapply strc_set; [exact T|exact K|reflexivity|reflexivity|]. intros j. reflexivity.
  - destruct (nlookup id (ss_map s)) as [k|] eqn:M; [|injection H as <- <-; split; [exact W|apply (strc_quiet s); auto]].
    destruct (nth_error (ss_subs s) k) as [[i path ph l c]|] eqn:K; [|injection H as <- <-; split; [exact W|apply (strc_quiet s); auto]].
    destruct (track_insert (Group sq g) l c) as [[[] l']|] eqn:TI; injection H as <- <-;
      try (split; [exact W|apply (strc_quiet s); auto]; fail).
    pose proof (sw_closed _ W _ _ K) as C. pose proof (sw_id _ W _ _ K) as I. cbn in C, I. subst i.
    unfold track_insert in TI. destruct c as [c|]; [discriminate|].
    assert (l' = Some (Group sq g)) as ->.
    { destruct l as [l|]; [destruct (g_seq l <? g_seq (Group sq g))%N|]; congruence. }
    destruct (sw_in _ W _ _ M) as (-> & b & K2 & R). rewrite K in K2. injection K2 as <-.
    assert (ph = Registered) as -> by (destruct ph; try discriminate R; congruence).
    assert (E : forall y, swith_subs s y = swith_map (swith_subs s y) (ss_map s)) by reflexivity. rewrite E. split.
    + eapply swf_set; [exact W|exact K|reflexivity|reflexivity| |].
      * intros B id. destruct (N.eqb_spec id (wrap k)) as [->|N]; [|reflexivity]. exact (sw_map _ W B _ _ K).
      * intros id j Q. destruct (Nat.eq_dec j k) as [->|J]; [|auto]. left. apply (sw_in _ W) in Q. tauto.
    + eapply strc_set; [exact T|exact K|reflexivity|reflexivity|]. intros j. cbn.
      destruct (Nat.eqb_spec k j) as [<-|N]; [|reflexivity]. rewrite (st_stand _ _ T), K. reflexivity.
Qed.

Lemma sinv_run ops : forall s tr, srun ssys_new ops = (s, tr) -> swf s /\ strc s tr.
Proof.
  induction ops as [|o ops IH] using rev_ind; intros s tr H.
  - injection H as <- <-. split; [apply swf_new|apply strc_new].
  - rewrite srun_snoc in H. destruct (srun ssys_new ops) as [s1 t1]. destruct (sstep s1 o) as [s2 x] eqn:E. injection H as <- <-.
    destruct (IH _ _ eq_refl). eapply sstep_inv; eauto.
Qed.

Lemma nth_wrap n k id : nth_error (map wrap (seq 0 n)) k = Some id -> k < n /\ id = wrap k.
Proof.
  intros H. pose proof (nth_error_len _ _ _ H) as L. rewrite map_length, seq_length in L. split; [exact L|].
  rewrite nth_error_map in H. destruct (nth_error (seq 0 n) k) as [j|] eqn:E; [|discriminate].
  injection H as <-. apply nth_error_nth with (d := 0) in E. rewrite seq_nth in E by lia. subst. reflexivity.
Qed.

Lemma ids_exact ops s tr k id : srun ssys_new ops = (s, tr) -> nth_error (ids tr) k = Some id -> id = (N.of_nat k mod 2 ^ 64)%N.
Proof. intros R H. destruct (sinv_run _ _ _ R) as [W T]. rewrite (st_ids _ _ T) in H. apply nth_wrap in H. tauto. Qed.

Lemma ids_distinct ops s tr : srun ssys_new ops = (s, tr) -> (N.of_nat (length (ids tr)) <= 2 ^ 64)%N -> NoDup (ids tr).
Proof.
  intros R B. destruct (sinv_run _ _ _ R) as [W T]. rewrite (st_ids _ _ T) in *. apply NoDup_nth_error. intros i j L E.
  rewrite map_length, seq_length in *. destruct (nth_error (map wrap (seq 0 (length (ss_subs s)))) i) as [x|] eqn:I.
  - symmetry in E. apply nth_wrap in I, E. eapply wrap_inj; [exact B|tauto|tauto|]. destruct I, E. congruence.
  - apply nth_error_None in I. rewrite map_length, seq_length in I. lia.
Qed.

Lemma group_exact ops s tr k id seq g : srun ssys_new ops = (s, tr) -> (N.of_nat (length (ids tr)) <= 2 ^ 64)%N ->
  nth_error (ids tr) k = Some id -> snd (sstep s (SGroup id seq g)) = reception k seq (standing_of k tr).
Proof.
  intros R B H. destruct (sinv_run _ _ _ R) as [W T]. rewrite (st_ids _ _ T) in *. rewrite map_length, seq_length in B.
  apply nth_wrap in H. destruct H as [L ->]. destruct (nth_error (ss_subs s) k) as [b|] eqn:K; [|apply nth_error_None in K; lia].
  rewrite (st_stand _ _ T), K. cbn [sstep]. rewrite (sw_map _ W B _ _ K). pose proof (sw_closed _ W _ _ K) as C.
  destruct b as [i path ph l c]. cbn in C. destruct ph; cbn [registered stands sb_phase sb_latest]; try reflexivity; rewrite K.
  - rewrite C. cbn. destruct l as [l|]; cbn; [destruct (g_seq l <? seq)%N|]; reflexivity.
  - destruct c; [reflexivity|congruence].
Qed.

Lemma group_unknown ops s tr id seq g : srun ssys_new ops = (s, tr) -> ~ In id (ids tr) ->
  snd (sstep s (SGroup id seq g)) = SRefused Cancel.
Proof.
  intros R H. destruct (sinv_run _ _ _ R) as [W T]. cbn. destruct (nlookup id (ss_map s)) as [k|] eqn:M; [|reflexivity].
  destruct (sw_in _ W _ _ M) as (-> & b & K & _). exfalso. apply H. rewrite (st_ids _ _ T). apply in_map, in_seq.
  apply nth_error_len in K. lia.
Qed.

Lemma never_shared ops s tr path : srun ssys_new ops = (s, tr) -> NoDup (consumed path tr).
Proof. intros R. destruct (sinv_run _ _ _ R) as [W T]. apply (st_dup _ _ T). Qed.

(** ** What the peer is told *)
Record told (s : ssys) (tr : list sevent) : Prop := {
  td_bcasts : forall b p r, nth_error (ss_bcasts s) b = Some (p, r) -> In (SConsume p, SBroadcast b) tr;
  td_subs : Forall2 (fun q b => snd q = sb_id b /\ In (SConsume (sb_path b), SBroadcast (fst q)) tr) (requests tr) (ss_subs s);
  td_told : forall k id path, In (SStart k, SSubscribe id path) tr ->
              exists b, nth_error (requests tr) k = Some (b, id) /\ In (SConsume path, SBroadcast b) tr }.

Lemma F2_nth {A B} (P : A -> B -> Prop) l l' : Forall2 P l l' -> forall k y, nth_error l' k = Some y -> exists x, nth_error l k = Some x /\ P x y.
Proof. induction 1; intros [|k] z H1; cbn in *; try discriminate; [injection H1 as <-; eauto|eauto]. Qed.
Lemma F2_set {A B} (P : A -> B -> Prop) l l' k y : Forall2 P l l' -> (forall x, nth_error l k = Some x -> P x y) -> Forall2 P l (set_nth k y l').
Proof. intros H. revert k. induction H; intros [|k] H1; cbn; constructor; auto; apply H1; reflexivity. Qed.

Lemma requests_snoc tr e : requests (tr ++ [e]) = requests tr ++ requests_of e.
Proof. unfold requests. rewrite flat_map_app. cbn. rewrite app_nil_r. reflexivity. Qed.

Lemma told_keep s s' tr e : told s tr -> requests_of e = [] ->
  (forall b p r, nth_error (ss_bcasts s') b = Some (p, r) -> (exists r', nth_error (ss_bcasts s) b = Some (p, r')) \/ e = (SConsume p, SBroadcast b)) ->
  (forall P, Forall2 P (requests tr) (ss_subs s) -> (forall q b b', sb_id b' = sb_id b -> sb_path b' = sb_path b -> P q b -> P q b') -> Forall2 P (requests tr) (ss_subs s')) ->
  (forall k id path, e = (SStart k, SSubscribe id path) -> exists b, nth_error (ss_subs s) k = Some b /\ sb_id b = id /\ sb_path b = path) ->
  told s' (tr ++ [e]).
Proof.
  intros [T1 T2 T3] Er Hb Hs Ht. split; rewrite ?requests_snoc, ?Er, ?app_nil_r.
  - intros b p r H. apply in_app_iff. destruct (Hb _ _ _ H) as [[r' H']|H']; [left; eauto|right; cbn; auto].
  - assert (F : Forall2 (fun q b => snd q = sb_id b /\ In (SConsume (sb_path b), SBroadcast (fst q)) (tr ++ [e])) (requests tr) (ss_subs s)).
    { eapply Forall2_impl; [|exact T2]. cbn. intros q b [H1 H2]. split; auto. apply in_app_iff. auto. }
    apply Hs; auto. intros q b b' -> ->. auto.
  - intros k id path H. apply in_app_iff in H as [H|[H|[]]].
    + destruct (T3 _ _ _ H) as (b & H1 & H2). exists b. split; auto. apply in_app_iff. auto.
    + destruct (Ht _ _ _ H) as (b & Hk & <- & <-). destruct (F2_nth _ _ _ T2 _ _ Hk) as ([b0 id0] & Hq & E1 & E2). cbn in *. subst id0.
      exists b0. split; auto. apply in_app_iff. auto.
Qed.

Lemma told_step s tr o s' x : told s tr -> sstep s o = (s', x) -> told s' (tr ++ [(o, x)]).
Proof.
  intros T H. 
  assert (Keep : forall s', ss_bcasts s' = ss_bcasts s -> ss_subs s' = ss_subs s -> requests_of (o, x) = [] ->
    (forall k id path, (o, x) <> (SStart k, SSubscribe id path)) -> told s' (tr ++ [(o, x)])).
  { intros s0 E1 E2 E3 E4. eapply told_keep; eauto.
    - rewrite E1. eauto.
    - intros P F _. rewrite E2. auto.
    - intros k id path E. destruct (E4 _ _ _ E). }
  assert (Set_ : forall m k b b', s' = swith_map (swith_subs s (set_nth k b' (ss_subs s))) m -> nth_error (ss_subs s) k = Some b ->
    sb_id b' = sb_id b -> sb_path b' = sb_path b -> requests_of (o, x) = [] ->
    (forall k' id path, (o, x) = (SStart k', SSubscribe id path) -> k' = k /\ sb_id b = id /\ sb_path b = path) -> told s' (tr ++ [(o, x)])).
  { intros m k b b' -> Hk E1 E2 E3 E4. eapply told_keep; eauto; cbn.
    - intros P F C. apply F2_set; auto. intros q Hq. destruct (F2_nth _ _ _ F _ _ Hk) as (q' & Hq' & Pq). assert (q' = q) by congruence. subst.
      eapply C; eauto.
    - intros k' id path E. destruct (E4 _ _ _ E) as (-> & <- & <-). eauto. }
  destruct o as [path|b|b|k|k out|k|id sq g]; cbn [sstep] in H.
  - destruct (lookup path (ss_bmap s)); injection H as <- <-; [apply Keep; auto; discriminate|].
    eapply told_keep; eauto; cbn; [|discriminate]. intros b p r H.
    destruct (Nat.lt_ge_cases b (length (ss_bcasts s))) as [L|L].
    + rewrite nth_error_app1 in H by lia. eauto.
    + rewrite nth_error_app2 in H by lia. destruct (b - length (ss_bcasts s)) as [|[|]] eqn:E; cbn in H; try discriminate.
      injection H as -> _. right. do 2 f_equal. lia.
  - destruct (nth_error (ss_bcasts s) b) as [[path [|]]|] eqn:Eb; injection H as <- <-; try (apply Keep; auto; discriminate).
    destruct T as [T1 T2 T3]. split; rewrite ?requests_snoc; cbn [ss_bcasts ss_subs requests_of].
    + intros b0 p r H. apply in_app_iff. eauto.
    + apply Forall2_app.
      * eapply Forall2_impl; [|exact T2]. cbn. intros q b0 [H1 H2]. split; auto. apply in_app_iff. auto.
      * constructor; [|constructor]. cbn. split; auto. apply in_app_iff. eauto.
    + intros k id p H. apply in_app_iff in H as [H|[H|[]]]; [|discriminate].
      destruct (T3 _ _ _ H) as (b0 & H1 & H2). exists b0. split; [|apply in_app_iff; auto].
      rewrite nth_error_app1; auto. apply nth_error_Some. congruence.
  - destruct (nth_error (ss_bcasts s) b) as [[path [|]]|] eqn:Eb; injection H as <- <-; try (apply Keep; auto; discriminate).
    eapply told_keep; eauto; cbn; [|discriminate]. intros b0 p r H. left.
    destruct (Nat.eq_dec b b0) as [<-|N].
    + rewrite nth_error_set_eq in H by (apply nth_error_Some; congruence). injection H as <- <-. eauto.
    + rewrite nth_error_set_ne in H by auto. eauto.
  - destruct (nth_error (ss_subs s) k) as [[i p ph l c]|] eqn:Ek; [|injection H as <- <-; apply Keep; auto; discriminate].
    destruct ph; injection H as <- <-; try (apply Keep; auto; discriminate).
    eapply Set_; eauto; try reflexivity. cbn. intros k' id path E. injection E as <- <- <-. auto.
  - destruct (nth_error (ss_subs s) k) as [[i p ph l c]|] eqn:Ek; [|injection H as <- <-; apply Keep; auto; discriminate].
    destruct ph; injection H as <- <-; try (apply Keep; auto; discriminate).
    apply (Set_ (ss_map s) k (Subn i p Registered l c) (Subn i p Over l (Some out))); auto. discriminate.
  - destruct (nth_error (ss_subs s) k) as [[i p ph l c]|] eqn:Ek; [|injection H as <- <-; apply Keep; auto; discriminate].
    destruct ph; injection H as <- <-; try (apply Keep; auto; discriminate).
    eapply Set_; eauto; try reflexivity. discriminate.
  - destruct (nlookup id (ss_map s)) as [k|]; [|injection H as <- <-; apply Keep; auto; discriminate].
    destruct (nth_error (ss_subs s) k) as [[i p ph l c]|] eqn:Ek; [|injection H as <- <-; apply Keep; auto; discriminate].
    destruct (track_insert _ _ _) as [[[|] l']|]; injection H as <- <-; try (apply Keep; auto; discriminate).
    apply (Set_ (ss_map s) k (Subn i p ph l c) (Subn i p ph l' c)); auto. discriminate.
Qed.

Lemma told_run ops : forall s tr, srun ssys_new ops = (s, tr) -> told s tr.
Proof.
  induction ops as [|o ops IH] using rev_ind; intros s tr H.
  - injection H as <- <-. split; cbn; [intros [|b]; discriminate|constructor|tauto].
  - rewrite srun_snoc in H. destruct (srun ssys_new ops) as [s1 t1]. destruct (sstep s1 o) as [s2 x] eqn:E. injection H as <- <-.
    eapply told_step; eauto.
Qed.
Lemma peer_told ops s tr k id path : srun ssys_new ops = (s, tr) -> In (SStart k, SSubscribe id path) tr ->
  exists b, nth_error (requests tr) k = Some (b, id) /\ In (SConsume path, SBroadcast b) tr.
Proof. intros R. apply (td_told _ _ (told_run _ _ _ R)). Qed.
Lemma requests_ids tr : ids tr = map snd (requests tr).
Proof.
  unfold ids, requests. induction tr as [|[o x] tr IH]; cbn; auto. rewrite map_app, <- IH. f_equal.
  destruct o; auto. destruct x; auto.
Qed.

(** ** Who reads a track *)
Lemma urun_snoc ops : forall s o, urun s (ops ++ [o]) =
  let (s1, tr) := urun s ops in let (s2, x) := ustep s1 o in (s2, tr ++ [(o, x)]).
Proof.
  induction ops as [|a ops IH]; intros s o; cbn [urun app].
  - destruct (ustep s o); reflexivity.
  - destruct (ustep s a) as [s1 x]. rewrite IH. destruct (urun s1 ops) as [s2 tr].
    destruct (ustep s2 o); reflexivity.
Qed.

Definition keeps (b : bsys) (t : nat) : Prop := exists n e h, nth_error (bs_tracks b) t = Some (Track n e h) /\
  (e <> None \/ exists k, get (bs_tasks b) k = Some t).

Lemma keeps_more b b' t : keeps b t -> (forall t n e h, nth_error (bs_tracks b) t = Some (Track n e h) -> exists e' h', nth_error (bs_tracks b') t = Some (Track n e' h') /\ (e <> None -> e' <> None)) ->
  (forall k, get (bs_tasks b) k = Some t -> get (bs_tasks b') k = Some t) -> keeps b' t.
Proof.
  intros (n & e & h & A & B) F G. destruct (F _ _ _ _ A) as (e' & h' & A' & E). exists n, e', h'. split; [exact A'|].
  destruct B as [B|[k B]]; [auto|]. right. exists k. auto.
Qed.

Lemma keeps_step b o t : keeps b t -> keeps (fst (bstep b o)) t.
Proof.
  intros K.
  assert (SAME : forall t n e h, nth_error (bs_tracks b) t = Some (Track n e h) -> exists e' h', nth_error (bs_tracks b) t = Some (Track n e' h') /\ (e <> None -> e' <> None)) by eauto.
  assert (MORE : forall x t n e h, nth_error (bs_tracks b) t = Some (Track n e h) -> exists e' h', nth_error (bs_tracks b ++ [x]) t = Some (Track n e' h') /\ (e <> None -> e' <> None)).
  { intros x u n e h H. exists e, h. split; [|auto]. rewrite nth_error_app1; [exact H|]. eapply nth_error_len; eauto. }
  assert (ENDS : forall oc v t n e h, nth_error (bs_tracks b) t = Some (Track n e h) -> exists e' h', nth_error (end_track oc v (bs_tracks b)) t = Some (Track n e' h') /\ (e <> None -> e' <> None)).
  { intros oc v u n e h H. rewrite nth_error_end. destruct (Nat.eqb_spec u v) as [->|]; [rewrite H|eauto]. destruct e; eauto. exists (Some oc), h. split; [reflexivity|congruence]. }
  assert (HOLD : forall v t n e h, nth_error (bs_tracks b) t = Some (Track n e h) -> exists e' h', nth_error (hold_track v (bs_tracks b)) t = Some (Track n e' h') /\ (e <> None -> e' <> None)).
  { intros v u n e h H. rewrite nth_error_hold. destruct (Nat.eqb_spec u v) as [->|]; [rewrite H|]; eauto. }
  destruct o; cbn [bstep].
  - destruct (get (bs_cons b) c); [|exact K]. destruct (lookup name (bs_published b)); [exact K|].
    destruct (bs_chan_closed b); (apply (keeps_more b); [exact K|cbn; apply MORE|cbn; auto]).
  - destruct (get (bs_prods b) p); [|exact K]. destruct (bs_queue b) as [|w q]; [exact K|].
    apply (keeps_more b); [exact K|cbn; apply HOLD|]. cbn. intros k. apply get_snoc_old.
  - destruct (get (bs_prods b) p); [|exact K]. apply (keeps_more b); [exact K|cbn; apply MORE|]. cbn. intros k. apply get_snoc_old.
  - apply (keeps_more b); [exact K|cbn; apply MORE|cbn; auto].
  - destruct (get (bs_prods b) p); [|exact K]. destruct (nth_error (bs_tracks b) t0); [|exact K].
    apply (keeps_more b); [exact K|cbn; apply SAME|]. cbn. intros k. apply get_snoc_old.
  - destruct (nth_error (bs_tracks b) t0) as [[n [] []]|]; try exact K. apply (keeps_more b); [exact K|cbn; apply ENDS|cbn; auto].
  - destruct (get (bs_tasks b) k) as [u|] eqn:G; [|exact K]. destruct (nth_error (bs_tracks b) u) as [[n [e|] h]|] eqn:U; try exact K.
    assert (KK : forall pub, keeps (bwith_published (bwith_tasks b (set_nth k None (bs_tasks b))) pub) t).
    { intros pub. destruct K as (n1 & e1 & h1 & A & B). exists n1, e1, h1. split; [exact A|]. destruct B as [B|[j B]]; [auto|].
      destruct (Nat.eq_dec k j) as [<-|N]; [left; rewrite G in B; injection B as ->; congruence|].
      right. exists j. cbn. rewrite get_set_ne; auto. }
    destruct (lookup n (bs_published (bwith_tasks b (set_nth k None (bs_tasks b))))) as [t'|].
    + destruct (Nat.eqb u t'); apply KK.
    + apply (KK (bs_published b)).
  - destruct (get (bs_prods b) p); exact K.
  - destruct (get (bs_prods b) p); exact K.
  - destruct (get (bs_prods b) p); [|exact K]. destruct (0 <? bs_cloned b)%Z; exact K.
  - destruct (bs_drop b) as [[]|]; try exact K. destruct (bs_queue b); [exact K|].
    apply (keeps_more b); [exact K|cbn; apply ENDS|cbn; auto].
  - destruct (get (bs_prods b) p); exact K.
  - destruct (get (bs_prods b) p); exact K.
  - destruct (bs_guards b); exact K.
  - destruct (get (bs_cons b) c); exact K.
  - destruct (get (bs_cons b) c); exact K.
  - destruct (get (bs_cons b) c); exact K.
  - destruct (nth_error (bs_tracks b) t0); exact K.
Qed.

Lemma keeps_request b p b' t : bwf b -> bstep b (BRequest p) = (b', BRequested (AOk (Some t))) -> keeps b' t.
Proof.
  intros W. cbn. destruct (get (bs_prods b) p); [|discriminate]. destruct (bs_queue b) as [|t0 q] eqn:Q.
  - destruct (bs_chan_closed b); discriminate.
  - intros [= <- <-]. destruct (w_queue _ W t0) as [n U]; [rewrite Q; cbn; auto|]. exists n, None, true. cbn. split.
    + rewrite nth_error_hold, Nat.eqb_refl, U. reflexivity.
    + right. exists (length (bs_tasks b)). apply get_snoc_new.
Qed.

Record uinv (s : usys) (tr : list uevent) : Prop := {
  ui_wf : bwf (us_bcast s);
  ui_hand : us_users s = handles tr;
  ui_keep : forall p t, In (UOp (BRequest p), UOut (BRequested (AOk (Some t)))) tr -> keeps (us_bcast s) t }.

Lemma uinv_run ops : forall s tr, urun usys_new ops = (s, tr) -> uinv s tr.
Proof.
  induction ops as [|o ops IH] using rev_ind; intros s tr H.
  - injection H as <- <-. split; [apply bwf_new|reflexivity|intros p t []].
  - rewrite urun_snoc in H. destruct (urun usys_new ops) as [s1 t1]. destruct (ustep s1 o) as [s2 x] eqn:E. injection H as <- <-.
    destruct (IH _ _ eq_refl) as [W D K]. assert (HS : handles (t1 ++ [(o, x)]) = handling (handles t1) (o, x)) by (unfold handles; rewrite fold_left_app; reflexivity).
    destruct o as [o|h|h|t]; cbn [ustep] in E.
    + destruct (bstep (us_bcast s1) o) as [b y] eqn:B. injection E as <- <-. pose proof (bwf_step _ o W) as W2. rewrite B in W2. split; cbn [us_bcast us_users].
      * exact W2.
      * rewrite HS, D. destruct o; try reflexivity; destruct y; reflexivity.
      * intros p t H. apply in_app_or in H. destruct H as [H|[H|[]]].
        -- apply K in H. apply (keeps_step _ o) in H. rewrite B in H. exact H.
        -- injection H as H1 H2. subst o y. exact (keeps_request _ _ _ _ W B).
    + destruct (get (us_users s1) h) as [t|] eqn:G; injection E as <- <-; split; cbn [us_bcast us_users]; auto; try (rewrite HS, D in *; cbn; rewrite ?G; reflexivity);
        intros p u H; apply in_app_or in H; destruct H as [H|[H|[]]]; try discriminate; eauto.
    + destruct (get (us_users s1) h) as [t|] eqn:G; injection E as <- <-; split; cbn [us_bcast us_users]; auto; try (rewrite HS, D in *; cbn; rewrite ?G; reflexivity);
        intros p u H; apply in_app_or in H; destruct H as [H|[H|[]]]; try discriminate; eauto.
    + destruct (nth_error (bs_tracks (us_bcast s1)) t); injection E as <- <-; split; cbn [us_bcast us_users]; auto; try (rewrite HS, D; reflexivity);
        intros p u H; apply in_app_or in H; destruct H as [H|[H|[]]]; try discriminate; eauto.
Qed.

Lemma holds_get (l : table nat) k t : get l k = Some t -> existsb (holds t) l = true.
Proof.
  rewrite get_Some. intros H. apply existsb_exists. exists (Some t). split; [eapply nth_error_In; eauto|]. cbn. apply Nat.eqb_refl.
Qed.

Lemma never_unused ops s tr p t : urun usys_new ops = (s, tr) -> In (UOp (BRequest p), UOut (BRequested (AOk (Some t)))) tr ->
  snd (ustep s (UOp (BTrackClosed t))) = UOut (BEnded None) -> snd (ustep s (UUnused t)) = UIdle false.
Proof.
  intros R H C. destruct (uinv_run _ _ _ R) as [_ _ K]. destruct (K _ _ H) as (n & e & h & A & B). cbn in C |- *. rewrite A in C |- *.
  cbn in C. injection C as ->. destruct B as [B|[k B]]; [congruence|]. cbn. unfold idle_track. rewrite (holds_get _ _ _ B).
  rewrite andb_false_r. reflexivity.
Qed.

Lemma read_used ops s tr t : urun usys_new ops = (s, tr) -> read_by tr t -> snd (ustep s (UUnused t)) <> UIdle true.
Proof.
  intros R [h H]. destruct (uinv_run _ _ _ R) as [_ D _]. rewrite <- D in H. cbn. destruct (nth_error _ t); [|discriminate].
  cbn. unfold idle_track. rewrite (holds_get _ _ _ H). discriminate.
Qed.

Lemma group_panic ops s tr k id seq g : srun ssys_new ops = (s, tr) -> (N.of_nat (length (ids tr)) <= 2 ^ 64)%N ->
  nth_error (ids tr) k = Some id -> (snd (sstep s (SGroup id seq g)) = SPanic <-> standing_of k tr = Closing).
Proof.
  intros R B H. rewrite (group_exact _ _ _ _ _ seq g R B H). destruct (standing_of k tr) as [|[l|]| |]; cbn; try (split; congruence).
  destruct (l <? seq)%N; split; congruence.
Qed.
