(** Forwarding between origins. *)
From Coq Require Import NArith ZArith List Lia Bool.
From Coq Require Import Init.Byte Strings.Byte.
From Coq Require Import ZifyBool ZifyNat ZifyN.
From Verif.Model Require Import Base ErrorCode Stream Frame FrameSys Map OriginSys Text Auth Relay.
From Verif.Spec Require Import OriginSpec RelaySpec.
From Verif.Proofs Require Import TableP MapP BroadcastP OriginP OriginTop.
Import ListNotations.
Open Scope nat_scope.

Lemma rlrun_snoc s ops o :
  rlrun s (ops ++ [o]) = let (s1, tr) := rlrun s ops in let (s2, x) := rlstep s1 o in (s2, tr ++ [(o, x)]).
Proof.
  revert s; induction ops as [|a ops IH]; intros s; cbn [rlrun app].
  - destruct (rlstep s o); auto.
  - destruct (rlstep s a) as [s1 x]. rewrite IH. destruct (rlrun s1 ops) as [s2 tr]. destruct (rlstep s2 o); auto.
Qed.

Lemma orun_one ops s tr o s' x : orun osys_new ops = (s, tr) -> ostep s o = (s', x) -> orun osys_new (ops ++ [o]) = (s', tr ++ [(o, x)]).
Proof. intros R B. rewrite orun_snoc, R, B. auto. Qed.

Lemma hist_app i a b : hist i (a ++ b) = hist i a ++ hist i b.
Proof. apply flat_map_app. Qed.
Lemma hist_one i j e : hist i [(j, e)] = if Nat.eqb j i then [e] else [].
Proof. cbn. rewrite app_nil_r. auto. Qed.
Lemma hist_tag_eq i l : hist i (map (fun e => (i, e)) l) = l.
Proof. induction l; cbn; auto. rewrite Nat.eqb_refl. cbn. f_equal. auto. Qed.
Lemma hist_tag_ne i j l : j <> i -> hist i (map (fun e => (j, e)) l) = [].
Proof. intros N. induction l; cbn; auto. destruct (Nat.eqb_spec j i); [congruence|auto]. Qed.

(** * One step of an origin *)
Definition touches_cons (c : nat) (o : oop) : bool :=
  match o with OPop d | ORecv d | OCancel d | OCDrop d => Nat.eqb d c | _ => false end.
Definition touches_prod (p : nat) (o : oop) : bool := match o with ODrop q => Nat.eqb q p | _ => false end.

Lemma keep_cons s o s' x c k : owf s -> ostep s o = (s', x) -> get (os_cons s) c = Some k -> touches_cons c o = false ->
  exists k', get (os_cons s') c = Some k' /\ oc_recv k' = oc_recv k.
Proof.
  intros W B G T. destruct o; cbn [touches_cons] in T.
  3:{ assert (X : x = OBad \/ x <> OBad) by (destruct x; auto; right; congruence). destruct X as [->|X].
      { unfold ostep in B. destruct (get (os_prods s) p), (nth_error (os_closed s) b); try (injection B as <-; eauto; fail).
        destruct (announce _ _ _ _ _ _); discriminate. }
      destruct (publish_step _ _ _ _ _ _ W B X) as (un & -> & N & I & O & Len & U & _). rewrite U, G. cbn.
      destruct (oc_linked k); eauto. rewrite oc_insert_eta. eexists; split; eauto. }
  all: unfold ostep, owith_cons in B; repeat match type of B with context [match ?x with _ => _ end] =>
             match x with context [match _ with _ => _ end] => fail 1 | _ => destruct x eqn:? end end;
    injection B as <- <-; cbn [os_cons]; eauto;
    try (exists k; split; auto; rewrite get_set_ne by (intros ->; rewrite Nat.eqb_refl in T; discriminate); auto; fail);
    try (exists k; split; auto; apply get_snoc_old; auto; fail).
Qed.
Lemma keep_prod s o s' x p : ostep s o = (s', x) -> get (os_prods s) p = Some tt -> touches_prod p o = false ->
  get (os_prods s') p = Some tt.
Proof.
  intros B G T. destruct o; cbn [touches_prod] in T;
  unfold ostep, owith_cons in B; repeat match type of B with context [match ?x with _ => _ end] =>
             match x with context [match _ with _ => _ end] => fail 1 | _ => destruct x eqn:? end end;
    injection B as <- <-; cbn [os_prods]; eauto;
    try (rewrite get_set_ne by (intros ->; rewrite Nat.eqb_refl in T; discriminate); auto; fail).
  apply get_snoc_old; auto.
Qed.
Lemma cons_grow s o s' x : owf s -> ostep s o = (s', x) -> length (os_cons s) <= length (os_cons s').
Proof.
  intros W B. destruct o.
  3:{ assert (X : x = OBad \/ x <> OBad) by (destruct x; auto; right; congruence). destruct X as [->|X].
      { unfold ostep in B. destruct (get (os_prods s) p), (nth_error (os_closed s) b); try (injection B as <-; eauto; fail).
        destruct (announce _ _ _ _ _ _); discriminate. }
      destruct (publish_step _ _ _ _ _ _ W B X) as (un & -> & N & I & O & Len & _). lia. }
  all: unfold ostep, owith_cons in B; repeat match type of B with context [match ?x with _ => _ end] =>
             match x with context [match _ with _ => _ end] => fail 1 | _ => destruct x eqn:? end end;
    injection B as <- <-; cbn [os_cons]; rewrite ?app_length, ?set_nth_length; lia.
Qed.
Lemma prods_grow s o s' x : ostep s o = (s', x) -> length (os_prods s) <= length (os_prods s').
Proof.
  intros B. destruct o; unfold ostep, owith_cons in B; repeat match type of B with context [match ?x with _ => _ end] =>
             match x with context [match _ with _ => _ end] => fail 1 | _ => destruct x eqn:? end end;
    injection B as <- <-; cbn [os_prods]; rewrite ?app_length, ?set_nth_length; lia.
Qed.
Lemma step_got_bound s o s' x c : ostep s o = (s', x) -> got_of c (o, x) <> [] -> c < length (os_cons s).
Proof.
  intros B G. unfold got_of in G. destruct o; try congruence. destruct x; try congruence.
  destruct (Nat.eqb_spec c0 c); [subst c0|congruence]. unfold ostep in B.
  destruct (get (os_cons s) c) eqn:E; [eapply get_lt; eauto|discriminate].
Qed.
Lemma same_closed s o s' x : ostep s o = (s', x) -> (o <> ONew) -> (forall b, o <> OEnd b) -> os_closed s' = os_closed s.
Proof.
  intros B N1 N2. destruct o; try congruence; try (destruct (N2 b); auto; fail); unfold ostep, owith_cons in B; repeat match type of B with context [match ?x with _ => _ end] =>
             match x with context [match _ with _ => _ end] => fail 1 | _ => destruct x eqn:? end end;
    injection B as <- <-; cbn [os_closed]; auto.
Qed.

(** The queue of a consumer that stays. *)
Lemma queue_step s o s' x c k k' : owf s -> ostep s o = (s', x) -> get (os_cons s) c = Some k -> get (os_cons s') c = Some k' ->
  oc_prefix k' = oc_prefix k /\ got_of c (o, x) ++ oc_updates k' = oc_updates k ++ relevant (oc_prefix k) (o, x).
Proof.
  intros W B G G'. assert (D : due c (oc_prefix k) (oc_updates k) s []).
  { split; [eapply get_lt; eauto|]. exists (oc_updates k). rewrite G. cbn. rewrite app_nil_r. auto. }
  pose proof (due_step _ _ _ _ _ _ _ _ W B D) as [_ (rest & H & K)]. rewrite G' in K. destruct K as [-> ->].
  cbn in H. rewrite !app_nil_r in H. auto.
Qed.

Lemma relevant_in pre suf b e : In (suf, b) (relevant pre e) <-> In b (announced_of (pre ++ suf) e).
Proof.
  destruct e as [[] []]; cbn; try tauto. destruct (without pre path) as [r|] eqn:E.
  - apply without_spec in E as ->. destruct (str_eqb_spec (pre ++ r) (pre ++ suf)) as [E|E].
    + apply app_inv_head in E as ->. cbn. intuition congruence.
    + cbn. split; [|tauto]. intros [[= -> ->]|[]]. congruence.
  - destruct (str_eqb_spec path (pre ++ suf)) as [->|N]; [|tauto].
    rewrite (proj2 (without_spec pre (pre ++ suf) suf) eq_refl) in E. discriminate.
Qed.
Lemma activity_some p a e b : activity p a e = Some b -> In b (announced_of p e) \/ a = Some b.
Proof.
  destruct e as [[] []]; cbn; auto; destruct (str_eqb _ _); cbn; auto; intros [= ->]; auto.
Qed.

(** * Origins and tasks *)
Definition hlist {A} (o : option A) : list A := match o with Some a => [a] | None => [] end.
Definition tell (i : nat) (x : bytes) (b : nat) (evs : list (nat * oevent)) : Prop := In b (announced x (hist i evs)).

Definition fwd_ok (os : list osys) (evs : list (nat * oevent)) (pre : bytes) (f : fwd) : Prop :=
  fw_over f = false -> exists a d k,
    nth_error os (fw_src f) = Some a /\ nth_error os (fw_dst f) = Some d /\
    get (os_cons a) (fw_cons f) = Some k /\ get (os_prods d) (fw_prod f) = Some tt /\
    oc_prefix k = pre /\ oc_recv k = fw_wait f /\
    (forall suf b, In (suf, b) (hlist (fw_hold f) ++ oc_updates k) -> tell (fw_src f) (pre ++ suf) b evs) /\
    (forall suf b, active (pre ++ suf) (hist (fw_src f) evs) = Some b ->
       tell (fw_dst f) (fw_prefix f ++ suf) b evs \/ In (suf, b) (hlist (fw_hold f) ++ oc_updates k)).

Definition ids (f : fwd) := (fw_src f, fw_cons f, fw_dst f, fw_prod f, fw_prefix f).
Definition cid (f : fwd) := (fw_src f, fw_cons f).
Definition pid (f : fwd) := (fw_dst f, fw_prod f).

Record core (just : action -> Prop) (free : nat -> Prop) (P : nat -> bytes) (os : list osys) (evs : list (nat * oevent)) (fs : list fwd) : Prop := {
  c_hist : forall i o, nth_error os i = Some o -> orun osys_new (map fst (hist i evs)) = (o, hist i evs);
  c_none : forall i, length os <= i -> hist i evs = [];
  c_just : forall k f, nth_error fs k = Some f -> just (AForward (fw_src f) (P k) (fw_dst f) (fw_prefix f));
  c_ok : forall k f, nth_error fs k = Some f -> fwd_ok os evs (P k) f;
  c_cid : NoDup (map cid fs);
  c_pid : NoDup (map pid fs);
  c_bound : forall k f, nth_error fs k = Some f -> exists a d, nth_error os (fw_src f) = Some a /\ nth_error os (fw_dst f) = Some d /\
    fw_cons f < length (os_cons a) /\ fw_prod f < length (os_prods d) /\ 0 < fw_prod f;
  c_told : forall i x b, tell i x b evs ->
    free i \/ (exists src pre prefix suf, just (AForward src pre i prefix) /\ x = prefix ++ suf /\ tell src (pre ++ suf) b evs) \/
    (just (AForce x) /\ i = 0);
  c_zero : forall i o, nth_error os i = Some o -> 0 < length (os_prods o);
  c_over : forall k f, nth_error fs k = Some f -> fw_over f = true -> fw_hold f = None }.

Lemma tell_mono i x b evs ev : tell i x b evs -> tell i x b (evs ++ ev).
Proof.
  unfold tell. rewrite hist_app. unfold announced. rewrite flat_map_app, in_app_iff. auto.
Qed.
Lemma tell_snoc i x b evs j e : tell i x b (evs ++ [(j, e)]) <-> tell i x b evs \/ (j = i /\ In b (announced_of x e)).
Proof.
  unfold tell. rewrite hist_app, hist_one. destruct (Nat.eqb_spec j i) as [->|N].
  - rewrite announced_snoc, in_app_iff. tauto.
  - rewrite app_nil_r. tauto.
Qed.
Lemma core_owf just free P os evs fs i o : core just free P os evs fs -> nth_error os i = Some o -> owf o /\ otr o (hist i evs).
Proof. intros C H. exact (otr_run _ _ _ (c_hist _ _ _ _ _ _ C _ _ H)). Qed.

Definition moves (i : nat) (o : oop) (a' : osys) (x : oout) (f f' : fwd) : Prop :=
  ids f' = ids f /\
  (fw_over f' = true -> fw_hold f' = None) /\
  (fw_over f' = false -> fw_over f = false /\
    (i = fw_src f -> exists k', get (os_cons a') (fw_cons f) = Some k' /\ oc_recv k' = fw_wait f' /\
       hlist (fw_hold f') = hlist (fw_hold f) ++ got_of (fw_cons f) (o, x)) /\
    (i <> fw_src f -> fw_wait f' = fw_wait f /\ fw_hold f' = fw_hold f) /\
    (i = fw_dst f -> touches_prod (fw_prod f) o = false)).

Lemma fwd_move os evs pre i a o a' x f f' :
  nth_error os i = Some a -> owf a -> ostep a o = (a', x) -> moves i o a' x f f' ->
  fwd_ok os evs pre f -> fwd_ok (set_nth i a' os) (evs ++ [(i, (o, x))]) pre f'.
Proof.
  intros N W B (I & _ & M) K Ov. destruct (M Ov) as (Ov0 & M1 & M2 & M3). clear M.
  destruct (K Ov0) as (s & d & k & Ns & Nd & G & Gp & Pk & Rk & Sa & Co). clear K.
  assert (I1 : fw_src f' = fw_src f) by (unfold ids in I; congruence).
  assert (I2 : fw_cons f' = fw_cons f) by (unfold ids in I; congruence).
  assert (I3 : fw_dst f' = fw_dst f) by (unfold ids in I; congruence).
  assert (I4 : fw_prod f' = fw_prod f) by (unfold ids in I; congruence).
  assert (I5 : fw_prefix f' = fw_prefix f) by (unfold ids in I; congruence).
  assert (Dd : exists d', nth_error (set_nth i a' os) (fw_dst f) = Some d' /\ get (os_prods d') (fw_prod f) = Some tt).
  { destruct (Nat.eq_dec i (fw_dst f)) as [->|Nd'].
    - rewrite nth_error_set_eq by (eapply nth_error_len; eauto). exists a'. split; auto.
      rewrite Nd in N. injection N as ->. eapply keep_prod; eauto.
    - rewrite nth_error_set_ne by auto. eauto. }
  destruct Dd as (d' & Nd' & Gp').
  destruct (Nat.eq_dec i (fw_src f)) as [->|Ns'].
  - rewrite Ns in N. injection N as <-. destruct (M1 eq_refl) as (k' & G' & R' & H').
    destruct (queue_step _ _ _ _ _ _ _ W B G G') as [P' Q'].
    exists a', d', k'. rewrite I1, I2, I3, I4, I5, nth_error_set_eq by (eapply nth_error_len; eauto).
    repeat (split; [solve [auto|congruence]|]).
    assert (E : hlist (fw_hold f') ++ oc_updates k' = (hlist (fw_hold f) ++ oc_updates k) ++ relevant (oc_prefix k) (o, x)).
    { rewrite H', <- !app_assoc, Q'. auto. }
    rewrite E. split.
    + intros suf b Hin. apply in_app_iff in Hin as [Hin|Hin].
      * apply tell_mono. eauto.
      * apply tell_snoc. right. split; auto. apply relevant_in. congruence.
    + intros suf b. rewrite hist_app, hist_one, Nat.eqb_refl, active_snoc. intros H. apply activity_some in H as [H|H].
      * right. rewrite in_app_iff. right. apply relevant_in. congruence.
      * apply Co in H as [H|H]; [left; apply tell_mono; auto|right; apply in_app_iff; auto].
  - destruct (M2 Ns') as [Wt Hd]. exists s, d', k. rewrite I1, I2, I3, I4, I5, nth_error_set_ne by auto. rewrite Wt, Hd.
    repeat (split; [solve [auto|congruence]|]). split.
    + intros suf b H. apply tell_mono. eauto.
    + intros suf b. rewrite hist_app, hist_one. destruct (Nat.eqb_spec i (fw_src f)); [congruence|]. rewrite app_nil_r. intros H.
      apply Co in H as [H|H]; [left; apply tell_mono; auto|auto].
Qed.

Lemma map_nth_inv {A B} (f : A -> B) l m k x : map f l = map f m -> nth_error l k = Some x -> exists y, nth_error m k = Some y /\ f y = f x.
Proof.
  intros E H. pose proof (map_nth_error f _ _ H) as H'. rewrite E in H'.
  rewrite nth_error_map in H'. destruct (nth_error m k); [|discriminate]. injection H' as H'. eauto.
Qed.

Lemma core_step just free P os evs fs fs' i a o a' x :
  core just free P os evs fs -> nth_error os i = Some a -> ostep a o = (a', x) ->
  length fs' = length fs ->
  (forall k f f', nth_error fs k = Some f -> nth_error fs' k = Some f' -> moves i o a' x f f') ->
  (forall y b, In b (announced_of y (o, x)) ->
     free i \/ (exists src pre prefix suf, just (AForward src pre i prefix) /\ y = prefix ++ suf /\ tell src (pre ++ suf) b evs) \/
     (just (AForce y) /\ i = 0)) ->
  core just free P (set_nth i a' os) (evs ++ [(i, (o, x))]) fs'.
Proof.
  intros C N B L M A.
  assert (Back : forall k f', nth_error fs' k = Some f' -> exists f, nth_error fs k = Some f /\ moves i o a' x f f').
  { intros k f' H. destruct (nth_error fs k) as [f|] eqn:E; [eauto|].
    apply nth_error_None in E. apply nth_error_len in H. lia. }
  assert (W : owf a) by (eapply core_owf; eauto).
  assert (Eids : map ids fs' = map ids fs).
  { clear -L M. revert fs' L M. induction fs as [|f fs IH]; intros [|f' fs'] L M; try discriminate; auto.
    cbn. f_equal; [apply (M 0); reflexivity|]. apply IH; [cbn in L; lia|]. intros k g g' H H'. apply (M (S k)); auto. }
  assert (Ec : map cid fs' = map cid fs).
  { replace (map cid fs') with (map (fun t => fst (fst (fst t))) (map ids fs')) by (rewrite map_map; auto). rewrite Eids, map_map. auto. }
  assert (Ep : map pid fs' = map pid fs).
  { replace (map pid fs') with (map (fun t => (snd (fst (fst t)), snd (fst t))) (map ids fs')) by (rewrite map_map; auto). rewrite Eids, map_map. auto. }
  split.
  - intros j u H. rewrite hist_app, hist_one. destruct (Nat.eqb_spec i j) as [->|Ne].
    + rewrite nth_error_set_eq in H by (eapply nth_error_len; eauto). injection H as <-.
      rewrite map_app. exact (orun_one _ _ _ _ _ _ (c_hist _ _ _ _ _ _ C _ _ N) B).
    + rewrite nth_error_set_ne in H by auto. rewrite app_nil_r. apply (c_hist _ _ _ _ _ _ C). auto.
  - intros j. rewrite set_nth_length. intros H. rewrite hist_app, hist_one, (c_none _ _ _ _ _ _ C) by auto.
    apply nth_error_len in N. destruct (Nat.eqb_spec i j); [lia|auto].
  - intros k f' H. destruct (Back _ _ H) as (f & Hf & (I & _)). pose proof (c_just _ _ _ _ _ _ C _ _ Hf).
    unfold ids in I. injection I as -> _ -> _ ->. auto.
  - intros k f' H. destruct (Back _ _ H) as (f & Hf & Mv). eapply fwd_move; eauto. apply (c_ok _ _ _ _ _ _ C). auto.
  - rewrite Ec. apply C.
  - rewrite Ep. apply C.
  - intros k f' H. destruct (Back _ _ H) as (f & Hf & (I & _)). destruct (c_bound _ _ _ _ _ _ C _ _ Hf) as (s & d & H1 & H2 & H3 & H4 & H5).
    unfold ids in I. injection I as -> -> -> -> _. pose proof (cons_grow _ _ _ _ W B). pose proof (prods_grow _ _ _ _ B).
    assert (X1 : exists s', nth_error (set_nth i a' os) (fw_src f) = Some s' /\ fw_cons f < length (os_cons s')).
    { destruct (Nat.eq_dec i (fw_src f)) as [->|Ne]; [|rewrite nth_error_set_ne by auto; eauto].
      rewrite nth_error_set_eq by (eapply nth_error_len; eauto). rewrite N in H1. injection H1 as ->. eexists; split; eauto. lia. }
    assert (X2 : exists d', nth_error (set_nth i a' os) (fw_dst f) = Some d' /\ fw_prod f < length (os_prods d')).
    { destruct (Nat.eq_dec i (fw_dst f)) as [->|Ne]; [|rewrite nth_error_set_ne by auto; eauto].
      rewrite nth_error_set_eq by (eapply nth_error_len; eauto). rewrite N in H2. injection H2 as ->. eexists; split; eauto. lia. }
    destruct X1 as (s' & ? & ?), X2 as (d' & ? & ?). exists s', d'. auto.
  - intros j y b H. apply tell_snoc in H as [H|[-> H]].
    + apply (c_told _ _ _ _ _ _ C) in H as [H|[(src & pre & prefix & suf & H1 & H2 & H3)|H]]; auto.
      right. left. exists src, pre, prefix, suf. repeat split; auto. apply tell_mono; auto.
    + destruct (A _ _ H) as [H'|[(src & pre & prefix & suf & H1 & H2 & H3)|H']]; auto.
      right. left. exists src, pre, prefix, suf. repeat split; auto. apply tell_mono; auto.
  - intros j u H. destruct (Nat.eq_dec i j) as [->|Ne].
    + rewrite nth_error_set_eq in H by (eapply nth_error_len; eauto). injection H as <-.
      pose proof (prods_grow _ _ _ _ B). pose proof (c_zero _ _ _ _ _ _ C _ _ N). lia.
    + rewrite nth_error_set_ne in H by auto. eapply c_zero; eauto.
  - intros k f' H. destruct (Back _ _ H) as (f & Hf & (_ & Mo & _)). auto.
Qed.

(** A use of an origin that leaves the handles of all tasks alone. *)
Lemma moves_same just free P os evs fs i a o a' x k f : core just free P os evs fs -> nth_error os i = Some a -> ostep a o = (a', x) ->
  nth_error fs k = Some f -> (i = fw_src f -> touches_cons (fw_cons f) o = false) -> (i = fw_dst f -> touches_prod (fw_prod f) o = false) ->
  moves i o a' x f f.
Proof.
  intros C N B Hf T1 T2. split; [auto|]. split; [eapply c_over; eauto|]. intros Ov. split; [auto|]. split.
  - intros ->. destruct (c_ok _ _ _ _ _ _ C _ _ Hf Ov) as (s & d & kk & Ns & Nd & G & Gp & Pk & Rk & _).
    rewrite N in Ns. injection Ns as <-. destruct (core_owf _ _ _ _ _ _ _ _ C N) as [W _].
    destruct (keep_cons _ _ _ _ _ _ W B G (T1 eq_refl)) as (k' & G' & R'). exists k'. rewrite R'. repeat split; auto.
    specialize (T1 eq_refl). unfold got_of, touches_cons in *. destruct o; try (rewrite app_nil_r; auto; fail).
    rewrite T1. destruct x; rewrite app_nil_r; auto.
  - split; auto.
Qed.
Lemma core_other just free P os evs fs i a o a' x :
  core just free P os evs fs -> nth_error os i = Some a -> ostep a o = (a', x) ->
  (forall k f, nth_error fs k = Some f -> (i = fw_src f -> touches_cons (fw_cons f) o = false) /\ (i = fw_dst f -> touches_prod (fw_prod f) o = false)) ->
  (forall y b, In b (announced_of y (o, x)) ->
     free i \/ (exists src pre prefix suf, just (AForward src pre i prefix) /\ y = prefix ++ suf /\ tell src (pre ++ suf) b evs) \/
     (just (AForce y) /\ i = 0)) ->
  core just free P (set_nth i a' os) (evs ++ [(i, (o, x))]) fs.
Proof.
  intros C N B T A. eapply core_step; eauto. intros k f f' H H'. rewrite H in H'. injection H' as <-.
  destruct (T _ _ H). eapply moves_same; eauto.
Qed.

Lemma core_all just free P o : (o = ONew \/ exists b, o = OEnd b) -> forall fs rest d evs rest' ev,
  core just free P (d ++ rest) evs fs -> at_all (length d) o rest = (rest', ev) ->
  core just free P (d ++ rest') (evs ++ ev) fs.
Proof.
  intros Ho fs rest. induction rest as [|s rest IH]; intros d evs rest' ev C H; cbn [at_all] in H.
  - injection H as <- <-. rewrite !app_nil_r in *. auto.
  - destruct (ostep s o) as [s' x] eqn:B. destruct (at_all (S (length d)) o rest) as [l' ev'] eqn:E. injection H as <- <-.
    assert (N : nth_error (d ++ s :: rest) (length d) = Some s) by (rewrite nth_error_app2, Nat.sub_diag by lia; auto).
    assert (C' : core just free P (set_nth (length d) s' (d ++ s :: rest)) (evs ++ [(length d, (o, x))]) fs).
    { eapply core_other; eauto.
      - intros k f _. destruct Ho as [->|[b ->]]; auto.
      - intros y b. destruct Ho as [->|[b' ->]]; cbn; destruct x; intros []. }
    assert (S' : set_nth (length d) s' (d ++ s :: rest) = (d ++ [s']) ++ rest).
    { destruct (set_nth_split _ s' _ _ N) as (p & q & E1 & E2 & E3). rewrite E2.
      assert (p = d /\ q = rest) as [-> ->]; [|rewrite <- app_assoc; auto].
      clear -E1 E3. revert p E1 E3. induction d as [|z d IH]; intros [|y p] E1 E3; cbn in *; try lia; [injection E1 as ->; auto|].
      injection E1 as -> E1. destruct (IH p) as [-> ->]; auto; lia. }
    rewrite S' in C'. specialize (IH (d ++ [s']) (evs ++ [(length d, (o, x))]) l' ev' C').
    rewrite app_length, Nat.add_1_r in IH. specialize (IH E). rewrite <- !app_assoc in IH. exact IH.
Qed.

Lemma active_announced p tr b : active p tr = Some b -> In b (announced p tr).
Proof.
  revert b; induction tr as [|e tr IH] using rev_ind; intros b; [discriminate|]. rewrite active_snoc, announced_snoc, in_app_iff.
  intros H. apply activity_some in H as [H|H]; auto.
Qed.
Lemma got_bound c tr0 : forall ops s tr, tr0 = tr -> orun osys_new ops = (s, tr) -> length (os_cons s) <= c -> got c tr = [].
Proof.
  induction tr0 as [|e tr0 IH] using rev_ind; intros ops s tr <- R L; auto.
  destruct (exists_last (l := ops)) as (ops' & o & ->).
  { intros ->. cbn in R. injection R as _ R. destruct tr0; discriminate. }
  rewrite orun_snoc in R. destruct (orun osys_new ops') as [s1 tr1] eqn:R1. destruct (ostep s1 o) as [s2 x] eqn:B.
  injection R as -> E. apply app_inj_tail in E as [<- <-].
  destruct (otr_run _ _ _ R1) as [W _]. pose proof (cons_grow _ _ _ _ W B).
  rewrite got_snoc. rewrite (IH ops' s1 tr1) by (auto; lia).
  destruct (got_of c (o, x)) eqn:G; auto. pose proof (step_got_bound _ _ _ _ c B). rewrite G in H0. specialize (H0 ltac:(discriminate)). lia.
Qed.

Lemma core_spawn just free P P' os evs fs src a pre ks dst b1 b2 a1 c prefix :
  core just free P os evs fs -> nth_error os src = Some a -> ostep a (OConsume 0 pre ks) = (a1, OConsumer c) ->
  nth_error (set_nth src a1 os) dst = Some b1 -> ostep b1 (OClone 0) = (b2, OUnit) ->
  just (AForward src pre dst prefix) -> P' (length fs) = pre -> (forall k, k < length fs -> P' k = P k) ->
  core just free P' (set_nth dst b2 (set_nth src a1 os)) ((evs ++ [(src, (OConsume 0 pre ks, OConsumer c))]) ++ [(dst, (OClone 0, OUnit))])
    (fs ++ [Fwd src c dst (length (os_prods b1)) prefix false None false]).
Proof.
  intros C N B N1 B1 J P1 P2.
  pose proof (core_owf _ _ _ _ _ _ _ _ C N) as [W Y].
  assert (C1 : core just free P (set_nth src a1 os) (evs ++ [(src, (OConsume 0 pre ks, OConsumer c))]) fs).
  { eapply core_other; eauto; intros y b []. }
  assert (C2 : core just free P (set_nth dst b2 (set_nth src a1 os)) ((evs ++ [(src, (OConsume 0 pre ks, OConsumer c))]) ++ [(dst, (OClone 0, OUnit))]) fs).
  { eapply core_other; eauto; intros y b []. }
  cbn [ostep] in B. destruct (get (os_prods a) 0) as [[]|] eqn:G0; [|discriminate]. injection B as <- <-.
  cbn [ostep] in B1. destruct (get (os_prods b1) 0) as [[]|] eqn:G1; [|discriminate]. injection B1 as <-.
  set (a1 := OSys (os_active a) _ _ _ _ _ _) in *. set (b2 := OSys (os_active b1) _ _ _ _ _ _) in *.
  set (evs2 := _ ++ [(dst, _)]) in *. set (os2 := set_nth dst b2 _) in *.
  set (f := Fwd src _ dst _ prefix false None false).
  assert (Xs : exists s2, nth_error os2 src = Some s2 /\ os_cons s2 = os_cons a1).
  { unfold os2. destruct (Nat.eq_dec dst src) as [->|Ne].
    - rewrite nth_error_set_eq by (rewrite set_nth_length; eapply nth_error_len; eauto). exists b2. split; auto.
      rewrite nth_error_set_eq in N1 by (eapply nth_error_len; eauto). injection N1 as <-. auto.
    - rewrite nth_error_set_ne by auto. rewrite nth_error_set_eq by (eapply nth_error_len; eauto). eauto. }
  destruct Xs as (s2 & Ns2 & Es2).
  assert (Nd2 : nth_error os2 dst = Some b2) by (unfold os2; rewrite nth_error_set_eq; auto; eapply nth_error_len; eauto).
  assert (Hs : hist src evs2 = hist src evs ++ (OConsume 0 pre ks, OConsumer (length (os_cons a))) :: (if Nat.eqb dst src then [(OClone 0, OUnit)] else [])).
  { unfold evs2. rewrite !hist_app, !hist_one, Nat.eqb_refl, <- app_assoc. auto. }
  assert (As : forall p, active p (hist src evs2) = active p (hist src evs)).
  { intros p. rewrite Hs. unfold active. rewrite fold_left_app. cbn. destruct (Nat.eqb dst src); auto. }
  assert (K2 : get (os_cons s2) (length (os_cons a)) = Some (OCons pre (snapshot_of pre ks (os_active a)) false false true)).
  { rewrite Es2. cbn. apply get_snoc_new. }
  destruct (snapshot_of_spec a (hist src evs) pre ks W Y) as [_ Sn].
  split.
  - apply (c_hist _ _ _ _ _ _ C2).
  - apply (c_none _ _ _ _ _ _ C2).
  - intros k g. rewrite nth_error_snoc. destruct (Nat.eqb_spec k (length fs)) as [->|Ne].
    + intros [= <-]. rewrite P1. auto.
    + intros H. rewrite P2 by (eapply nth_error_len; eauto). eapply c_just; eauto.
  - intros k g. rewrite nth_error_snoc. destruct (Nat.eqb_spec k (length fs)) as [->|Ne].
    + intros [= <-] _. rewrite P1. exists s2, b2. eexists. cbn [f fw_src fw_dst fw_cons fw_prod fw_hold fw_wait fw_prefix hlist app].
      split; [exact Ns2|]. split; [exact Nd2|]. split; [exact K2|]. split; [apply get_snoc_new|]. split; [auto|]. split; [auto|].
      cbn [oc_updates]. split.
      * intros suf b H. apply Sn in H. unfold tell. rewrite <- As in H. apply active_announced. auto.
      * intros suf b H. rewrite As in H. right. apply Sn. auto.
    + intros H. rewrite P2 by (eapply nth_error_len; eauto). eapply c_ok; eauto.
  - rewrite map_app. apply NoDup_snoc; [apply C2|]. cbn. intros H. apply in_map_iff in H as (g & E & H). apply In_nth_error in H as [k H].
    destruct (c_bound _ _ _ _ _ _ C _ _ H) as (s & d & H1 & H2 & H3 & H4 & _). unfold cid in E. injection E as E1 E2. rewrite E1, N in H1. injection H1 as <-. lia.
  - rewrite map_app. apply NoDup_snoc; [apply C2|]. cbn. intros H. apply in_map_iff in H as (g & E & H). apply In_nth_error in H as [k H].
    destruct (c_bound _ _ _ _ _ _ C1 _ _ H) as (s & d & H1 & H2 & H3 & H4 & _). unfold pid in E. injection E as E1 E2. rewrite E1, N1 in H2. injection H2 as <-. lia.
  - intros k g. rewrite nth_error_snoc. destruct (Nat.eqb_spec k (length fs)) as [->|Ne].
    + intros [= <-]. exists s2, b2. cbn. split; auto. split; auto. pose proof (get_lt _ _ _ K2). pose proof (get_lt _ _ _ G1).
      rewrite app_length. cbn. lia.
    + intros H. eapply c_bound; eauto.
  - apply (c_told _ _ _ _ _ _ C2).
  - apply (c_zero _ _ _ _ _ _ C2).
  - intros k g. rewrite nth_error_snoc. destruct (Nat.eqb_spec k (length fs)) as [->|Ne]; [intros [= <-]; auto|eapply c_over; eauto].
Qed.

Lemma catch_up_quiet closed : forall i y b s s' tr, orun s (catch_up i closed) = (s', tr) -> ~ In b (announced y tr).
Proof.
  assert (H : forall ops y b s s' tr, (forall o, In o ops -> o = ONew \/ exists b, o = OEnd b) -> orun s ops = (s', tr) -> ~ In b (announced y tr)).
  { induction ops as [|o ops IH]; intros y b s s' tr H R; cbn [orun] in R; [injection R as <- <-; auto|].
    destruct (ostep s o) as [s1 x] eqn:B. destruct (orun s1 ops) as [s2 tr2] eqn:R2. injection R as <- <-. unfold announced. cbn [flat_map].
    rewrite in_app_iff. intros [K|K]; [|eapply IH; eauto; intros; apply H; right; auto].
    destruct (H o (or_introl eq_refl)) as [->|[b' ->]]; cbn in K; destruct x; auto. }
  intros i y b s s' tr. apply H. revert i. induction closed as [|c r IH]; intros i o; cbn [catch_up]; [intros []|].
  intros [<-|K]; auto. apply in_app_iff in K as [K|K]; [|eauto]. destruct c; [destruct K as [<-|[]]; eauto|destruct K].
Qed.
Lemma orun_ops ops : forall s s' tr, orun s ops = (s', tr) -> map fst tr = ops.
Proof.
  induction ops as [|o ops IH]; intros s s' tr R; cbn [orun] in R; [injection R as <- <-; auto|].
  destruct (ostep s o) as [s1 x]. destruct (orun s1 ops) as [s2 tr2] eqn:R2. injection R as <- <-. cbn. f_equal. eauto.
Qed.
Lemma orun_prods_grow ops : forall s s' tr, orun s ops = (s', tr) -> length (os_prods s) <= length (os_prods s').
Proof.
  induction ops as [|o ops IH]; intros s s' tr R; cbn [orun] in R; [injection R as <- <-; auto|].
  destruct (ostep s o) as [s1 x] eqn:B. destruct (orun s1 ops) as [s2 tr2] eqn:R2. injection R as <- <-.
  pose proof (prods_grow _ _ _ _ B). pose proof (IH _ _ _ R2). lia.
Qed.

Lemma core_open just (just' : action -> Prop) free (free' : nat -> Prop) P os evs fs o ev :
  core just free P os evs fs -> fresh os = (o, ev) -> (forall a, just a -> just' a) -> (forall i, i < length os -> free i -> free' i) ->
  let n := length os in
  core just' free' P (os ++ [o; o]) (evs ++ (map (fun e => (n, e)) ev ++ map (fun e => (S n, e)) ev)) fs.
Proof.
  intros C F J Fr n. unfold fresh in F.
  assert (Hold : forall i, i < n -> hist i (evs ++ (map (fun e => (n, e)) ev ++ map (fun e => (S n, e)) ev)) = hist i evs).
  { intros i Hi. rewrite !hist_app, !hist_tag_ne by lia. rewrite !app_nil_r. auto. }
  assert (H1 : hist n (evs ++ (map (fun e => (n, e)) ev ++ map (fun e => (S n, e)) ev)) = ev).
  { rewrite !hist_app, hist_tag_eq, hist_tag_ne by lia. rewrite (c_none _ _ _ _ _ _ C) by (unfold n; lia). cbn. apply app_nil_r. }
  assert (H2 : hist (S n) (evs ++ (map (fun e => (n, e)) ev ++ map (fun e => (S n, e)) ev)) = ev).
  { rewrite !hist_app, hist_tag_eq, hist_tag_ne by lia. rewrite (c_none _ _ _ _ _ _ C) by (unfold n; lia). cbn. auto. }
  assert (Nth : forall i u, nth_error (os ++ [o; o]) i = Some u -> (i < n /\ nth_error os i = Some u) \/ ((i = n \/ i = S n) /\ u = o)).
  { intros i u H. destruct (Nat.lt_ge_cases i n) as [Hi|Hi]; [rewrite nth_error_app1 in H by auto; auto|].
    rewrite nth_error_app2 in H by auto. right. fold n in H. destruct (i - n) as [|[|m]] eqn:E; cbn in H; [| |destruct m; discriminate]; injection H as ->; split; auto; lia. }
  assert (Old : forall i u, nth_error os i = Some u -> nth_error (os ++ [o; o]) i = Some u).
  { intros i u H. rewrite nth_error_app1; auto. eapply nth_error_len; eauto. }
  assert (Tl : forall i y b, tell i y b (evs ++ (map (fun e => (n, e)) ev ++ map (fun e => (S n, e)) ev)) -> i < n /\ tell i y b evs).
  { intros i y b H. unfold tell in *. destruct (Nat.lt_ge_cases i n) as [Hi|Hi]; [rewrite Hold in H; auto|exfalso].
    destruct (Nat.eq_dec i n) as [->|]; [rewrite H1 in H; eapply catch_up_quiet; eauto|].
    destruct (Nat.eq_dec i (S n)) as [->|]; [rewrite H2 in H; eapply catch_up_quiet; eauto|].
    rewrite !hist_app, !hist_tag_ne in H by lia. rewrite (c_none _ _ _ _ _ _ C) in H by (unfold n in *; lia). exact H. }
  split.
  - intros i u H. apply Nth in H as [[Hi H]|[[->| ->] ->]].
    + rewrite Hold by auto. eapply c_hist; eauto.
    + rewrite H1. rewrite (orun_ops _ _ _ _ F). auto.
    + rewrite H2. rewrite (orun_ops _ _ _ _ F). auto.
  - intros i. rewrite app_length. cbn. intros Hi. rewrite !hist_app, !hist_tag_ne by (unfold n in *; lia).
    rewrite (c_none _ _ _ _ _ _ C) by (unfold n in *; lia). auto.
  - intros k f H. apply J. eapply c_just; eauto.
  - intros k f H Ov. destruct (c_ok _ _ _ _ _ _ C _ _ H Ov) as (a & d & kk & Na & Nd & G & Gp & Pk & Rk & Sa & Co).
    exists a, d, kk. repeat (split; [solve [auto]|]). split.
    + intros suf b Hi. apply tell_mono. eauto.
    + intros suf b. rewrite Hold by (eapply nth_error_len; eauto). intros Ha. destruct (Co _ _ Ha); [left; apply tell_mono|]; auto.
  - apply C.
  - apply C.
  - intros k f H. destruct (c_bound _ _ _ _ _ _ C _ _ H) as (a & d & Na & Nd & X). exists a, d. auto.
  - intros i x b H. destruct (Tl _ _ _ H) as [Hi H']. apply (c_told _ _ _ _ _ _ C) in H' as [K|[(src & pre & prefix & suf & K1 & K2 & K3)|[K1 K2]]]; auto.
    right. left. exists src, pre, prefix, suf. repeat split; auto. apply tell_mono. auto.
  - intros i u H. apply Nth in H as [[Hi H]|[_ ->]]; [eapply c_zero; eauto|].
    apply orun_prods_grow in F. cbn in F. lia.
  - apply (c_over _ _ _ _ _ _ C).
Qed.
