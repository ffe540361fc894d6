(** What the events of an origin determine. *)
From Coq Require Import NArith ZArith List Lia Bool Permutation.
From Coq Require Import Init.Byte Strings.Byte.
From Coq Require Import ZifyBool ZifyNat ZifyN.
From Verif.Model Require Import Base ErrorCode Stream Frame FrameSys Map OriginSys.
From Verif.Spec Require Import OriginSpec.
From Verif.Proofs Require Import TableP MapP BroadcastP OriginP.
Import ListNotations.
Open Scope nat_scope.

Lemma active_snoc p tr e : active p (tr ++ [e]) = activity p (active p tr) e.
Proof. unfold active. rewrite fold_left_app. auto. Qed.
Lemma announced_snoc p tr e : announced p (tr ++ [e]) = announced p tr ++ announced_of p e.
Proof. unfold announced. rewrite flat_map_app. cbn. rewrite app_nil_r. auto. Qed.
Lemma got_snoc c tr e : got c (tr ++ [e]) = got c tr ++ got_of c e.
Proof. unfold got. rewrite flat_map_app. cbn. rewrite app_nil_r. auto. Qed.
Lemma later_snoc pre tr e : later pre (tr ++ [e]) = later pre tr ++ relevant pre e.
Proof. unfold later. rewrite flat_map_app. cbn. rewrite app_nil_r. auto. Qed.
Lemma ended_snoc b tr e : ended b (tr ++ [e]) <-> ended b tr \/ e = (OEnd b, OUnit).
Proof. unfold ended. rewrite in_app_iff. cbn. intuition congruence. Qed.

(** * Readers *)
Definition due (c : nat) (pre : bytes) (u : updates) (s : osys) (tr : list oevent) : Prop :=
  c < length (os_cons s) /\
  exists rest, got c tr ++ rest = u ++ later pre tr /\
  match get (os_cons s) c with Some k => rest = oc_updates k /\ oc_prefix k = pre | None => True end.

Lemma due_same c pre u s s' tr e :
  got_of c e = [] -> relevant pre e = [] -> length (os_cons s) <= length (os_cons s') ->
  (c < length (os_cons s) -> option_map (fun k => (oc_updates k, oc_prefix k)) (get (os_cons s') c) =
   option_map (fun k => (oc_updates k, oc_prefix k)) (get (os_cons s) c) \/ get (os_cons s') c = None) ->
  due c pre u s tr -> due c pre u s' (tr ++ [e]).
Proof.
  intros G R L E [B (rest & H & K)]. split; [lia|]. exists rest. rewrite got_snoc, later_snoc, G, R, !app_nil_r. split; auto.
  destruct (E B) as [E'|E']; [|rewrite E'; auto].
  destruct (get (os_cons s') c) as [k'|], (get (os_cons s) c) as [k|]; cbn in E'; try discriminate; auto.
  injection E' as -> ->. auto.
Qed.

Lemma due_step c pre u s tr o s' x : owf s -> ostep s o = (s', x) -> due c pre u s tr -> due c pre u s' (tr ++ [(o, x)]).
Proof.
  intros W B D. pose proof (proj1 D) as Bc. destruct o.
  - unfold ostep in B. injection B as <- <-. apply (due_same c pre u s); auto.
  - unfold ostep in B. destruct (nth_error (os_closed s) b); injection B as <- <-; apply (due_same c pre u s); auto.
  - (* OPublish *)
    assert (X : x = OBad \/ x <> OBad) by (destruct x; auto; right; congruence). destruct X as [->|X].
    { unfold ostep in B. destruct (get (os_prods s) p), (nth_error (os_closed s) b); try (injection B as <-; apply (due_same c pre u s); auto; fail).
      destruct (announce _ _ _ _ _ _); discriminate. }
    destruct (publish_step _ _ _ _ _ _ W B X) as (un & -> & N & I & O & Len & U & Ac & A1 & A2 & _).
    destruct D as [_ (rest & H & K)]. split; [lia|]. rewrite got_snoc, later_snoc. cbn [got_of]. rewrite app_nil_r.
    exists (rest ++ relevant pre (OPublish p path b, OUnique un)). rewrite !app_assoc, H. split; auto.
    rewrite U. destruct (get (os_cons s) c) as [k|] eqn:G; cbn [option_map]; auto. destruct K as [-> <-].
    destruct (oc_linked k) eqn:Lk; [|pose proof (v_unlinked _ W _ _ G Lk); congruence].
    rewrite oc_insert_eta. cbn. auto.
  - unfold ostep in B. destruct (get (os_tasks s) k) as [[path b]|]; [|injection B as <- <-; apply (due_same c pre u s); auto].
    destruct (nth_error (os_closed s) b) as [[]|]; injection B as <- <-; apply (due_same c pre u s); auto.
  - unfold ostep in B. destruct (get (os_prods s) p); injection B as <- <-; apply (due_same c pre u s); auto.
  - unfold ostep in B. destruct (get (os_prods s) p); injection B as <- <-; apply (due_same c pre u s); auto;
      cbn [os_cons]; rewrite ?app_length; try lia. intros _. left. rewrite get_app.
    destruct (Nat.eqb_spec c (length (os_cons s))); [lia|auto].
  - (* OPop *)
    unfold ostep in B. destruct (get (os_cons s) c0) as [[pre0 u0 tok [|] l]|] eqn:G;
      try (injection B as <- <-; apply (due_same c pre u s); auto; fail).
    destruct (Nat.eq_dec c0 c) as [->|Ne].
    + destruct D as [_ (rest & H & K)]. rewrite G in K. cbn in K. destruct K as [-> <-].
      destruct u0 as [|[suf b] u0]; injection B as <- <-; (split; [cbn; rewrite set_nth_length; lia|]);
        rewrite got_snoc, later_snoc; cbn [got_of relevant]; rewrite ?Nat.eqb_refl, ?app_nil_r.
      * exists []. rewrite app_nil_r in H. rewrite app_nil_r. split; auto. cbn. rewrite (get_set_eq _ _ _ _ G). auto.
      * exists u0. rewrite <- app_assoc. split; auto. cbn. rewrite (get_set_eq _ _ _ _ G). auto.
    + destruct u0 as [|[suf b] u0]; injection B as <- <-; apply (due_same c pre u s); auto; cbn; rewrite ?set_nth_length; auto;
        try (destruct (Nat.eqb_spec c0 c); congruence); intros _; left; rewrite get_set_ne; auto.
  - (* ORecv *)
    unfold ostep in B. destruct (get (os_cons s) c0) as [[pre0 u0 tok [|] l]|] eqn:G;
      try (injection B as <- <-; apply (due_same c pre u s); auto; fail).
    destruct tok; [|destruct (l && os_alive s); [injection B as <- <-; apply (due_same c pre u s); auto|]]; injection B as <- <-;
      apply (due_same c pre u s); auto; cbn; rewrite ?set_nth_length; auto; intros _; left;
      (destruct (Nat.eq_dec c0 c) as [->|Ne]; [rewrite (get_set_eq _ _ _ _ G), G; auto|rewrite get_set_ne; auto]).
  - (* OCancel *)
    unfold ostep in B. destruct (get (os_cons s) c0) as [[pre0 u0 tok [|] l]|] eqn:G;
      injection B as <- <-; apply (due_same c pre u s); auto; cbn; rewrite ?set_nth_length; auto; intros _; left;
      (destruct (Nat.eq_dec c0 c) as [->|Ne]; [rewrite (get_set_eq _ _ _ _ G), G; auto|rewrite get_set_ne; auto]).
  - (* OCDrop *)
    unfold ostep in B. destruct (get (os_cons s) c0) as [k|] eqn:G;
      injection B as <- <-; apply (due_same c pre u s); auto; cbn; rewrite ?set_nth_length; auto; intros _.
    destruct (Nat.eq_dec c0 c) as [->|Ne]; [right; rewrite (get_set_eq _ _ _ _ G); auto|left; rewrite get_set_ne; auto].
  - unfold ostep in B. destruct (get (os_cons s) c0); injection B as <- <-; apply (due_same c pre u s); auto.
  - unfold ostep in B. destruct (get (os_copies s) k) as [[pre0 u0]|]; injection B as <- <-; apply (due_same c pre u s); auto;
      cbn [os_cons]; rewrite ?app_length; try lia. intros _. left. rewrite get_app.
    destruct (Nat.eqb_spec c (length (os_cons s))); [lia|auto].
  - unfold ostep in B. destruct (get (os_prods s) p); injection B as <- <-; apply (due_same c pre u s); auto.
  - unfold ostep in B. destruct (get (os_prods s) p); injection B as <- <-; apply (due_same c pre u s); auto.
  - unfold ostep in B. destruct (get (os_prods s) p); injection B as <- <-; apply (due_same c pre u s); auto.
Qed.

Lemma due_run c pre u s ops s' tr : owf s -> (exists k, get (os_cons s) c = Some k /\ oc_updates k = u /\ oc_prefix k = pre) ->
  orun s ops = (s', tr) -> due c pre u s' tr.
Proof.
  intros W (k & G & <- & <-). revert s' tr.
  induction ops as [|o ops IH] using rev_ind; intros s' tr.
  - cbn. intros [= <- <-]. split; [eapply get_lt; eauto|]. exists (oc_updates k). cbn. rewrite app_nil_r, G. auto.
  - rewrite orun_snoc. destruct (orun s ops) as [s1 tr1] eqn:R. pose proof (owf_run s ops W) as W1. rewrite R in W1. cbn [fst] in W1.
    destruct (ostep s1 o) as [s2 x] eqn:B. intros [= <- <-].
    exact (due_step _ _ _ _ _ _ _ _ W1 B (IH _ _ eq_refl)).
Qed.

Lemma obtains_head s c k x r : owf s -> get (os_cons s) c = Some k -> oc_updates k = x :: r -> obtains s c x.
Proof.
  intros W G E. destruct k as [pre u tok rc l]. cbn in E. subst u. destruct x as [suf b]. unfold obtains. destruct rc.
  - right. pose proof (v_token _ W _ _ G eq_refl) as T. cbn in T. rewrite T in G by discriminate.
    cbn. rewrite G. cbn. rewrite (get_set_eq _ _ _ _ G). auto.
  - left. cbn. rewrite G. auto.
Qed.

Lemma reading_iff s c : reading s c <-> exists k, get (os_cons s) c = Some k.
Proof. unfold reading. cbn. destruct (get (os_cons s) c); cbn; split; eauto; try discriminate. intros [k [=]]. Qed.

Lemma receives_of s c k : owf s -> get (os_cons s) c = Some k -> receives s c (oc_prefix k) (oc_updates k).
Proof.
  intros W G ops s' tr R. destruct (due_run c (oc_prefix k) (oc_updates k) s ops s' tr W) as [_ (rest & H & K)]; eauto.
  exists rest. split; auto. intros Rd x r E. apply reading_iff in Rd as [k' G']. rewrite G' in K. destruct K as [K _].
  pose proof (owf_run s ops W) as W'. rewrite R in W'. apply (obtains_head s' c k' x r W' G'). congruence.
Qed.

(** * The table of active broadcasts *)
Record otr (s : osys) (tr : list oevent) : Prop := {
  y_active : forall p, lookup p (os_active s) = active p tr;
  y_task : forall k p b, get (os_tasks s) k = Some (p, b) -> In b (announced p tr);
  y_tasked : forall p b, lookup p (os_active s) = Some b -> exists k, get (os_tasks s) k = Some (p, b);
  y_closed : forall b, nth_error (os_closed s) b = Some true <-> ended b tr;
  y_known : forall p b, In b (announced p tr) -> b < length (os_closed s);
  y_last : forall p, (forall b, In b (announced p tr) -> ~ ended b tr) ->
    active p tr = match rev (announced p tr) with [] => None | b :: _ => Some b end }.

Lemma otr_new : otr osys_new [].
Proof.
  split; cbn; auto; try discriminate; try tauto.
  - intros [|k]; discriminate.
  - intros b. split; [destruct b; discriminate|intros []].
Qed.

Lemma otr_quiet s s' tr e :
  (forall p a, activity p a e = a) -> (forall p, announced_of p e = []) -> (forall b, e <> (OEnd b, OUnit)) ->
  os_active s' = os_active s -> os_tasks s' = os_tasks s -> os_closed s' = os_closed s ->
  otr s tr -> otr s' (tr ++ [e]).
Proof.
  intros Q1 Q2 Q3 E1 E2 E3 [Y1 Y2 Y3 Y4 Y5 Y6].
  split; intros *; rewrite ?active_snoc, ?announced_snoc, ?E1, ?E2, ?E3, ?Q1, ?Q2, ?app_nil_r; eauto.
  - rewrite ended_snoc, <- Y4. split; [auto|intros [H|H]; [auto|destruct (Q3 _ H)]].
  - intros H. apply Y6. intros b Hb E. eapply H; eauto. apply ended_snoc. auto.
Qed.

Ltac oquietly := match goal with Y : otr ?s0 _ |- _ => apply (otr_quiet s0) end; [reflexivity|reflexivity|congruence|reflexivity|reflexivity|reflexivity|eassumption].

Lemma nth_error_set_iff {A} (l : list A) b c x y : nth_error l b = Some y ->
  nth_error (set_nth b x l) c = if Nat.eqb c b then Some x else nth_error l c.
Proof.
  intros E. destruct (Nat.eqb_spec c b) as [->|N]; [apply nth_error_set_eq; eapply nth_error_len; eauto|apply nth_error_set_ne; auto].
Qed.

Lemma otr_step s tr o s' x : owf s -> otr s tr -> ostep s o = (s', x) -> otr s' (tr ++ [(o, x)]).
Proof.
  intros W Y B. destruct o.
  - unfold ostep in B. injection B as <- <-. destruct Y as [Y1 Y2 Y3 Y4 Y5 Y6].
    split; intros *; cbn [os_active os_tasks os_closed]; rewrite ?active_snoc, ?announced_snoc; cbn [activity announced_of]; rewrite ?app_nil_r, ?nth_error_snoc; eauto.
    + rewrite ended_snoc, <- Y4. destr_if; [|intuition congruence]. split; [discriminate|].
      intros [H|H]; [apply nth_error_len in H; lia|discriminate].
    + rewrite app_length. intros H. apply Y5 in H. lia.
    + intros H. apply Y6. intros b Hb E. eapply H; eauto. apply ended_snoc. auto.
  - unfold ostep in B. destruct (nth_error (os_closed s) b) as [cl|] eqn:C; injection B as <- <-; [|oquietly].
    destruct Y as [Y1 Y2 Y3 Y4 Y5 Y6].
    split; intros *; cbn [os_active os_tasks os_closed]; rewrite ?active_snoc, ?announced_snoc; cbn [activity announced_of]; rewrite ?app_nil_r, ?set_nth_length; eauto.
    + rewrite ended_snoc, (nth_error_set_iff _ _ _ _ _ C). destr_if; [intuition|]. rewrite Y4. split; [auto|intros [H|H]; congruence].
    + intros H. apply Y6. intros b' Hb E. eapply H; eauto. apply ended_snoc. auto.
  - (* OPublish *)
    assert (X : x = OBad \/ x <> OBad) by (destruct x; auto; right; congruence). destruct X as [->|X].
    { unfold ostep in B. destruct (get (os_prods s) p), (nth_error (os_closed s) b); try (injection B as <-; oquietly).
      destruct (announce _ _ _ _ _ _); discriminate. }
    assert (Z : os_tasks s' = os_tasks s ++ [Some (path, b)] /\ os_closed s' = os_closed s /\ os_active s' = put path b (os_active s) /\ (exists un, x = OUnique un) /\ b < length (os_closed s)).
    { unfold ostep in B. destruct (get (os_prods s) p); [|injection B as <- <-; congruence].
      destruct (nth_error (os_closed s) b) eqn:C; [|injection B as <- <-; congruence].
      destruct (announce _ _ _ _ _ _). injection B as <- <-. cbn. apply nth_error_len in C. eauto 8. }
    destruct Z as (Z1 & Z2 & Z3 & [un ->] & Z4).
    destruct Y as [Y1 Y2 Y3 Y4 Y5 Y6].
    split; intros *; rewrite ?Z1, ?Z2, ?Z3, ?active_snoc, ?announced_snoc, ?lookup_put; cbn [activity announced_of].
    + rewrite (str_eqb_sym p0 path). destruct (str_eqb path p0); auto.
    + rewrite get_app, in_app_iff. destr_if; [intros [= -> ->]; rewrite str_eqb_refl; cbn; auto|eauto].
    + destr_if.
      * intros [= <-]. eexists. apply get_snoc_new.
      * intros H. destruct (Y3 _ _ H) as [k K]. exists k. apply get_snoc_old. auto.
    + rewrite ended_snoc, <- Y4. split; [auto|intros [H|H]; [auto|discriminate]].
    + rewrite in_app_iff. intros [H|H]; [eauto|]. destruct (str_eqb path p0); [destruct H as [<-|[]]; auto|destruct H].
    + intros H. destruct (str_eqb path p0) eqn:E.
      * rewrite rev_app_distr. cbn. auto.
      * rewrite app_nil_r in *. apply Y6. intros b' Hb E'. eapply H; eauto. apply ended_snoc. auto.
  - (* OTask *)
    unfold ostep in B. destruct (get (os_tasks s) k) as [[path b]|] eqn:K; [|injection B as <- <-; oquietly].
    destruct (nth_error (os_closed s) b) as [[]|] eqn:C; injection B as <- <-; try oquietly.
    destruct Y as [Y1 Y2 Y3 Y4 Y5 Y6].
    assert (TS : forall k0 u, get (set_nth k None (os_tasks s)) k0 = Some u -> get (os_tasks s) k0 = Some u).
    { intros k0 u. destruct (Nat.eq_dec k k0) as [->|N]; [rewrite (get_set_eq _ _ _ _ K)|rewrite get_set_ne by auto]; auto. discriminate. }
    split; intros *; cbn [os_active os_tasks os_closed]; rewrite ?active_snoc, ?announced_snoc, ?lookup_remove; cbn [activity announced_of]; rewrite ?app_nil_r; eauto.
    + rewrite (str_eqb_sym p path). destruct (str_eqb path p); auto.
    + destr_if; [discriminate|]. intros H. destruct (Y3 _ _ H) as [k0 K0]. exists k0. rewrite get_set_ne; auto. congruence.
    + rewrite ended_snoc, <- Y4. split; [auto|intros [H|H]; [auto|discriminate]].
    + intros H. destr_if.
      * exfalso. eapply H; [eapply Y2; eauto|]. apply ended_snoc. left. apply Y4. auto.
      * apply Y6. intros b' Hb E'. eapply H; eauto. apply ended_snoc. auto.
  - unfold ostep in B. destruct (get (os_prods s) p); injection B as <- <-; oquietly.
  - unfold ostep in B. destruct (get (os_prods s) p); injection B as <- <-; oquietly.
  - unfold ostep in B. destruct (get (os_cons s) c) as [[pre [|[]] tok [|] l]|]; injection B as <- <-; oquietly.
  - unfold ostep in B. destruct (get (os_cons s) c) as [[pre u [|] [|] l]|]; try destruct (l && os_alive s); injection B as <- <-; oquietly.
  - unfold ostep in B. destruct (get (os_cons s) c) as [[pre u tok [|] l]|]; injection B as <- <-; oquietly.
  - unfold ostep in B. destruct (get (os_cons s) c) as [k|]; injection B as <- <-; oquietly.
  - unfold ostep in B. destruct (get (os_cons s) c) as [k|]; injection B as <- <-; oquietly.
  - unfold ostep in B. destruct (get (os_copies s) k) as [[pre u]|]; injection B as <- <-; oquietly.
  - unfold ostep in B. destruct (get (os_prods s) p); injection B as <- <-; oquietly.
  - unfold ostep in B. destruct (get (os_prods s) p); injection B as <- <-; oquietly.
  - unfold ostep in B. destruct (get (os_prods s) p); injection B as <- <-; oquietly.
Qed.

Lemma otr_run ops s tr : orun osys_new ops = (s, tr) -> owf s /\ otr s tr.
Proof.
  revert s tr. induction ops as [|o ops IH] using rev_ind; intros s tr.
  - cbn. intros [= <- <-]. split; [apply owf_new|apply otr_new].
  - rewrite orun_snoc. destruct (orun osys_new ops) as [s1 tr1]. destruct (IH _ _ eq_refl) as [W R].
    pose proof (owf_step s1 o W) as W'. destruct (ostep s1 o) as [s2 x] eqn:B. intros [= <- <-].
    split; [exact W'|]. exact (otr_step s1 tr1 o s2 x W R B).
Qed.

(** * Snapshots *)
Lemma pick_perm {A} n (l : list A) x r : pick n l = Some (x, r) -> Permutation l (x :: r).
Proof.
  revert n x r; induction l as [|y l IH]; intros n x r; [discriminate|]. cbn. destruct n.
  - intros [= -> ->]. auto.
  - destruct (pick n l) as [[z l']|] eqn:P; intros [= <- <-]; auto. apply IH in P. rewrite P. apply perm_swap.
Qed.
Lemma shuffle_perm {A} ks (l : list A) : Permutation (shuffle ks l) l.
Proof.
  revert l; induction ks as [|k ks IH]; intros l; cbn; auto. destruct (pick k l) as [[x r]|] eqn:P.
  - rewrite IH. symmetry. eapply pick_perm; eauto.
  - destruct l; auto. destruct k; cbn in P; [discriminate|]. destruct (pick k l) as [[]|]; discriminate.
Qed.
(** Every iteration order is covered. *)
Lemma pick_split {A} (a : list A) x b : pick (length a) (a ++ x :: b) = Some (x, a ++ b).
Proof. induction a; cbn; auto. rewrite IHa. auto. Qed.
Lemma shuffle_any {A} (l m : list A) : Permutation l m -> exists ks, shuffle ks l = m.
Proof.
  revert l; induction m as [|x m IH]; intros l P.
  - apply Permutation_sym, Permutation_nil in P as ->. exists []. auto.
  - assert (I : In x l) by (eapply Permutation_in; [apply Permutation_sym; eauto|left; auto]).
    apply in_split in I as (a & b & ->). destruct (IH (a ++ b)) as [ks K].
    + apply Permutation_cons_inv with (a := x). rewrite <- P. apply Permutation_middle.
    + exists (length a :: ks). cbn. rewrite pick_split, K. auto.
Qed.

Lemma NoDup_snapshot pre (l : map_of nat) : NoDup (map fst l) ->
  NoDup (map fst (flat_map (fun e => match strip_prefix pre (fst e) with Some suffix => [(suffix, snd e)] | None => [] end) l)).
Proof.
  induction l as [|[p b] l IH]; cbn; intros N; [constructor|]. inversion N as [|? ? Np N']; subst.
  destruct (strip_prefix pre p) as [suf|] eqn:S; cbn; [|auto]. constructor; auto.
  intros I. apply in_map_iff in I as ([suf' b'] & E & I). cbn in E. subst suf'. apply in_flat_map in I as ([p' b2] & I & J). cbn in J.
  destruct (strip_prefix pre p') as [suf2|] eqn:S2; [|destruct J]. destruct J as [[= -> ->]|[]].
  apply strip_prefix_spec in S, S2. subst. apply Np. apply in_map_iff. exists (pre ++ suf, b'). auto.
Qed.

Lemma snapshot_of_spec s tr pre ks : owf s -> otr s tr -> snapshot pre tr (snapshot_of pre ks (os_active s)).
Proof.
  intros W Y. unfold snapshot_of. pose proof (shuffle_perm ks (os_active s)) as P.
  assert (N : NoDup (map fst (shuffle ks (os_active s)))).
  { eapply Permutation_NoDup; [apply Permutation_map, Permutation_sym; eauto|apply W]. }
  split; [apply NoDup_snapshot; auto|]. intros suf b. rewrite <- (y_active _ _ Y).
  rewrite in_flat_map. split.
  - intros ([p b'] & I & J). cbn in J. destruct (strip_prefix pre p) as [r|] eqn:S; [|destruct J]. destruct J as [[= -> ->]|[]].
    apply strip_prefix_spec in S as ->. apply In_lookup; [apply W|]. eapply Permutation_in; eauto.
  - intros L. apply lookup_In in L. exists (pre ++ suf, b). split.
    + eapply Permutation_in; [apply Permutation_sym; eauto|auto].
    + cbn. rewrite (proj2 (strip_prefix_spec pre (pre ++ suf) suf) eq_refl). left; auto.
Qed.

Lemma consume_receives ops s tr p pre ks s' c :
  orun osys_new ops = (s, tr) -> ostep s (OConsume p pre ks) = (s', OConsumer c) ->
  exists snap, snapshot pre tr snap /\ receives s' c pre snap.
Proof.
  intros R B. destruct (otr_run _ _ _ R) as [W Y]. pose proof (owf_step s (OConsume p pre ks) W) as W'. rewrite B in W'. cbn [fst] in W'.
  exists (snapshot_of pre ks (os_active s)). split; [apply snapshot_of_spec; auto|].
  unfold ostep in B. destruct (get (os_prods s) p); [|discriminate]. injection B as <- <-.
  eapply (receives_of _ _ (OCons pre (snapshot_of pre ks (os_active s)) false false true)); auto.
  cbn. apply get_snoc_new.
Qed.

(** Whatever order the snapshot is wanted in, some iteration order yields it first. *)
Lemma consume_no_end ops s tr c p : orun osys_new ops = (s, tr) -> producing s p -> snd (ostep s (ORecv c)) <> ODone.
Proof.
  intros R P. destruct (otr_run _ _ _ R) as [W Y]. unfold producing in P. cbn in P.
  destruct (get (os_prods s) p) eqn:G; [|discriminate]. pose proof (alive_prod _ _ _ G) as A.
  cbn. destruct (get (os_cons s) c) as [[pre ups tok [|] l]|] eqn:C; try discriminate. destruct tok; [discriminate|].
  destruct l; [rewrite A; discriminate|]. pose proof (v_unlinked _ W _ _ C eq_refl). congruence.
Qed.

Lemma clone_receives ops s tr c k sc mid sm trm sl d :
  orun osys_new ops = (s, tr) -> ostep s (OCloneCopy c) = (sc, OCopy k) ->
  orun sc mid = (sm, trm) -> ostep sm (OCloneLink k) = (sl, OConsumer d) ->
  exists pre u, receives s c pre u /\ receives sl d pre u.
Proof.
  intros R B M L. destruct (otr_run _ _ _ R) as [W Y].
  assert (Wc : owf sc) by (pose proof (owf_step s (OCloneCopy c) W) as W'; rewrite B in W'; exact W').
  assert (Wm : owf sm) by (pose proof (owf_run sc mid Wc) as W'; rewrite M in W'; exact W').
  assert (Wl : owf sl) by (pose proof (owf_step sm (OCloneLink k) Wm) as W'; rewrite L in W'; exact W').
  cbn in B. destruct (get (os_cons s) c) as [kc|] eqn:G; [|discriminate]. injection B as <- <-.
  exists (oc_prefix kc), (oc_updates kc). split; [apply receives_of; auto|].
  assert (C : forall ops s2 tr2, orun (OSys (os_active s) (os_vec s) (os_cons s) (os_copies s ++ [Some (oc_prefix kc, oc_updates kc)]) (os_prods s) (os_tasks s) (os_closed s)) ops = (s2, tr2) ->
     length (os_copies s) < length (os_copies s2) /\ (get (os_copies s2) (length (os_copies s)) = Some (oc_prefix kc, oc_updates kc) \/ get (os_copies s2) (length (os_copies s)) = None)).
  { induction ops0 as [|o ops0 IH] using rev_ind; intros s2 tr2.
    - cbn. intros [= <- <-]. cbn. rewrite app_length. cbn. split; [lia|]. left. apply get_snoc_new.
    - rewrite orun_snoc. destruct (orun _ ops0) as [s1 tr1]. destruct (IH _ _ eq_refl) as [Lt K]. clear IH.
      destruct (ostep s1 o) as [s3 x] eqn:B3. intros [= <- <-].
      assert (Q : os_copies s3 = os_copies s1 \/ (exists z, os_copies s3 = os_copies s1 ++ [z]) \/ (exists j y, get (os_copies s1) j = Some y /\ os_copies s3 = set_nth j None (os_copies s1))).
      { unfold ostep, owith_cons in B3. destruct o;
        repeat match type of B3 with context [match ?x with _ => _ end] =>
             match x with context [match _ with _ => _ end] => fail 1 | _ => destruct x eqn:? end end;
        injection B3 as <- <-; cbn; eauto 6. }
      destruct Q as [->|[[z ->]|(j & y & Gj & ->)]]; auto.
      + rewrite app_length. cbn. split; [lia|]. rewrite get_app. destr_if; [lia|auto].
      + rewrite set_nth_length. split; auto. destruct (Nat.eq_dec j (length (os_copies s))) as [->|N].
        * right. rewrite (get_set_eq _ _ _ _ Gj). auto.
        * rewrite get_set_ne; auto. }
  destruct (C _ _ _ M) as [_ [K|K]]; cbn in L; rewrite K in L; [|discriminate]. injection L as <- <-.
  eapply (receives_of _ _ (OCons (oc_prefix kc) (oc_updates kc) false false (os_alive sm))); auto. cbn. apply get_snoc_new.
Qed.

(** * Discovery *)
Lemma found_active ops s tr p path : orun osys_new ops = (s, tr) -> producing s p ->
  snd (ostep s (OLookup p path)) = OFound (active path tr).
Proof.
  intros R P. destruct (otr_run _ _ _ R) as [W Y]. unfold producing in P. cbn in *.
  destruct (get (os_prods s) p); [|discriminate]. cbn. rewrite (y_active _ _ Y). auto.
Qed.
Lemma found_last ops s tr p path bs b : orun osys_new ops = (s, tr) -> producing s p ->
  announced path tr = bs ++ [b] -> (forall b', In b' (bs ++ [b]) -> ~ ended b' tr) ->
  snd (ostep s (OLookup p path)) = OFound (Some b).
Proof.
  intros R P A H. rewrite (found_active _ _ _ _ _ R P). destruct (otr_run _ _ _ R) as [W Y].
  rewrite (y_last _ _ Y path); rewrite A; [|auto]. rewrite rev_app_distr. auto.
Qed.
Lemma settled_alive ops s tr p path b : orun osys_new ops = (s, tr) -> settled s ->
  snd (ostep s (OLookup p path)) = OFound (Some b) -> ~ ended b tr.
Proof.
  intros R S F E. destruct (otr_run _ _ _ R) as [W Y]. cbn in F. destruct (get (os_prods s) p); [|discriminate]. cbn in F.
  injection F as F. destruct (y_tasked _ _ Y _ _ F) as [k K]. specialize (S k). cbn in S. rewrite K in S.
  apply (y_closed _ _ Y) in E. rewrite E in S. discriminate.
Qed.
