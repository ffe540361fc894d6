(** Invariants of the origin system. *)
From Coq Require Import NArith ZArith List Lia Bool Permutation.
From Coq Require Import Init.Byte Strings.Byte.
From Coq Require Import ZifyBool ZifyNat ZifyN.
From Verif.Model Require Import Base ErrorCode Stream Frame FrameSys Map OriginSys.
From Verif.Spec Require Import OriginSpec.
From Verif.Proofs Require Import TableP MapP BroadcastP.
Import ListNotations.
Open Scope nat_scope.

Lemma orun_snoc s ops o :
  orun s (ops ++ [o]) =
  let (s1, tr) := orun s ops in let (s2, x) := ostep s1 o in (s2, tr ++ [(o, x)]).
Proof.
  revert s; induction ops as [|o1 ops IH]; intros s; cbn [orun app].
  - destruct (ostep s o); auto.
  - destruct (ostep s o1) as [s1 x1]. rewrite IH. destruct (orun s1 ops) as [s2 tr].
    destruct (ostep s2 o); auto.
Qed.
Lemma orun_app s ops1 ops2 :
  orun s (ops1 ++ ops2) =
  let (s1, tr1) := orun s ops1 in let (s2, tr2) := orun s1 ops2 in (s2, tr1 ++ tr2).
Proof.
  revert s; induction ops1 as [|o1 ops IH]; intros s; cbn [orun app].
  - destruct (orun s ops2); auto.
  - destruct (ostep s o1) as [s1 x1]. rewrite IH. destruct (orun s1 ops) as [s2 tr].
    destruct (orun s2 ops2); auto.
Qed.

Lemma strip_prefix_spec pre s r : strip_prefix pre s = Some r <-> s = pre ++ r.
Proof.
  revert s; induction pre as [|a pre IH]; intros s; cbn; [split; congruence|].
  destruct s as [|b s]; [split; discriminate|]. destruct (Byte.eqb a b) eqn:E.
  - apply byte_dec_bl in E as ->. rewrite IH. split; [intros ->; auto|intros [= ->]; auto].
  - split; [discriminate|]. intros [= -> _]. rewrite (byte_dec_lb eq_refl) in E. discriminate.
Qed.
Lemma without_spec pre s r : without pre s = Some r <-> s = pre ++ r.
Proof.
  unfold without. destruct (str_eqb_spec (firstn (length pre) s) pre) as [E|N].
  - split; [intros [= <-]|intros ->].
    + transitivity (firstn (length pre) s ++ skipn (length pre) s); [symmetry; apply firstn_skipn|rewrite E; auto].
    + rewrite skipn_app, skipn_all, Nat.sub_diag. auto.
  - split; [discriminate|]. intros ->. exfalso. apply N. rewrite firstn_app, firstn_all, Nat.sub_diag. cbn. apply app_nil_r.
Qed.
Lemma strip_without pre s : strip_prefix pre s = without pre s.
Proof.
  destruct (without pre s) as [r|] eqn:W.
  - apply strip_prefix_spec. apply without_spec. auto.
  - destruct (strip_prefix pre s) as [r|] eqn:S; auto. apply strip_prefix_spec in S. apply without_spec in S. congruence.
Qed.

(** * The announcement loop *)
Lemma swap_remove_split d (c : nat) r :
  exists r', swap_remove (length d) (d ++ c :: r) = d ++ r' /\ Permutation r' r.
Proof.
  unfold swap_remove. destruct (d ++ c :: r) as [|x0 l0] eqn:E; [destruct d; discriminate|]. rewrite <- E. clear E l0.
  assert (S : forall y, set_nth (length d) y (d ++ c :: r) = d ++ y :: r).
  { intros y. clear. induction d; cbn; congruence. }
  rewrite S. destruct r as [|z r] using rev_ind.
  - exists []. rewrite removelast_app by discriminate. cbn. auto.
  - clear IHr. exists (z :: r). split; [|apply Permutation_cons_append].
    assert (L : last (d ++ c :: r ++ [z]) x0 = z) by (rewrite app_comm_cons, app_assoc; apply last_last).
    rewrite L. rewrite removelast_app by discriminate. f_equal. rewrite app_comm_cons.
    rewrite removelast_app by discriminate. cbn. rewrite app_nil_r. auto.
Qed.

Lemma announce_spec path b : forall fuel d rest cons,
  length rest <= fuel -> NoDup (d ++ rest) ->
  exists cons' rest',
    announce fuel (length d) path b cons (d ++ rest) = (cons', d ++ rest') /\
    NoDup (d ++ rest') /\ incl rest' rest /\
    (forall c k, In c rest -> get cons c = Some k -> In c rest') /\
    length cons' = length cons /\
    (forall c, ~ In c rest -> get cons' c = get cons c) /\
    (forall c, In c rest -> get cons' c = option_map (oc_insert path b) (get cons c)).
Proof.
  induction fuel as [|fuel IH]; intros d rest cons L N.
  { destruct rest; [|cbn in L; lia]. exists cons, []. cbn. repeat split; auto; try apply incl_refl; tauto. }
  destruct rest as [|c r].
  { cbn [announce]. rewrite (proj2 (nth_error_None _ _)) by (rewrite app_length; cbn; lia).
    exists cons, []. repeat split; auto; try apply incl_refl; cbn; tauto. }
  cbn [announce]. rewrite nth_error_app2, Nat.sub_diag by lia. cbn [nth_error].
  assert (Nc : ~ In c (d ++ r)) by (apply NoDup_remove_2; auto).
  destruct (get cons c) as [k|] eqn:G.
  - destruct (IH (d ++ [c]) r (set_nth c (Some (oc_insert path b k)) cons)) as (cons' & r' & E & N' & I & O & Len & U1 & U2).
    + cbn in L; lia.
    + rewrite <- app_assoc. auto.
    + rewrite app_length in E. cbn in E. rewrite Nat.add_1_r in E. rewrite <- !app_assoc in E. cbn in E. rewrite <- !app_assoc in N'. cbn in N'.
      exists cons', (c :: r'). rewrite E. split; auto. split; auto. split.
      { intros x [->|Hx]; [left; auto|right; auto]. }
      split. { intros x kx [->|Hx] Gx; [left; auto|right]. destruct (Nat.eq_dec c x) as [->|Ne]; [exfalso; apply Nc; apply in_app_iff; auto|].
        eapply O; eauto. rewrite get_set_ne; eauto. }
      rewrite set_nth_length in Len. split; auto. split.
      { intros x Hx. rewrite U1 by (intros Hx'; apply Hx; right; auto). apply get_set_ne. intros ->. apply Hx. left; auto. }
      intros x [->|Hx].
      { rewrite U1, G by (intros Hx'; apply Nc; apply in_app_iff; auto). erewrite get_set_eq; eauto. }
      rewrite U2; auto. rewrite get_set_ne; auto. intros ->. apply Nc. apply in_app_iff; auto.
  - destruct (swap_remove_split d c r) as (r2 & E2 & P2). rewrite E2.
    assert (I2 : forall x, In x r2 <-> In x r).
    { intros x. split; apply Permutation_in; auto. apply Permutation_sym; auto. }
    destruct (IH d r2 cons) as (cons' & r' & E & N' & I & O & Len & U1 & U2).
    + rewrite (Permutation_length P2). cbn in L; lia.
    + apply NoDup_remove_1 in N. eapply Permutation_NoDup; [|exact N]. apply Permutation_app_head, Permutation_sym; auto.
    + exists cons', r'. rewrite E. split; auto. split; auto. split; [intros x Hx; right; apply I2; auto|].
      split. { intros x kx [->|Hx] Gx; [congruence|]. eapply O; eauto. apply I2; auto. }
      split; auto. split.
      { intros x Hx. apply U1. rewrite I2. intros Hx'. apply Hx. right; auto. }
      intros x [->|Hx]; [|apply U2, I2; auto]. destruct (in_dec Nat.eq_dec x r2) as [Hx|Hx]; [apply U2; auto|].
      rewrite U1, G; auto.
Qed.

Record owf (s : osys) : Prop := {
  v_nodup : NoDup (os_vec s);
  v_bound : forall c, In c (os_vec s) -> c < length (os_cons s);
  v_linked : forall c k, get (os_cons s) c = Some k -> oc_linked k = true -> In c (os_vec s);
  v_unlinked : forall c k, get (os_cons s) c = Some k -> oc_linked k = false -> os_alive s = false;
  v_token : forall c k, get (os_cons s) c = Some k -> oc_recv k = true -> oc_updates k <> [] -> oc_token k = true;
  v_active : NoDup (map fst (os_active s)) }.

Lemma owf_new : owf osys_new.
Proof. split; cbn; try constructor; try tauto; intros [|c]; discriminate. Qed.

Lemma pop_closed_suffix cons l : exists d, l = d ++ pop_closed cons l /\ forall c, In c d -> get cons c = None.
Proof.
  induction l as [|c l (d & E & H)]; cbn; [exists []; split; auto; intros c []|].
  destruct (get cons c) eqn:G.
  - exists []. split; auto. intros x [].
  - exists (c :: d). split; [cbn; congruence|]. intros x [->|Hx]; auto.
Qed.

Lemma alive_prod s p u : get (os_prods s) p = Some u -> os_alive s = true.
Proof. intros H. unfold os_alive. rewrite (live_get _ _ _ H). auto. Qed.
Lemma alive_task s k u : get (os_tasks s) k = Some u -> os_alive s = true.
Proof. intros H. unfold os_alive. rewrite (live_get _ _ _ H). apply orb_true_r. Qed.

Lemma oc_insert_eta path b k :
  oc_insert path b k = OCons (oc_prefix k) (oc_updates k ++ relevant (oc_prefix k) (OPublish 0 path b, OUnique true))
    (match without (oc_prefix k) path with Some _ => true | None => oc_token k end) (oc_recv k) (oc_linked k).
Proof.
  unfold oc_insert. cbn. rewrite strip_without. destruct (without (oc_prefix k) path); auto.
  rewrite app_nil_r. destruct k; auto.
Qed.

(** What a publication does. *)
Lemma publish_step s p path b s' x : owf s -> ostep s (OPublish p path b) = (s', x) -> x <> OBad ->
  exists u, x = OUnique u /\ NoDup (os_vec s') /\ incl (os_vec s') (os_vec s) /\
  (forall c k, In c (os_vec s) -> get (os_cons s) c = Some k -> In c (os_vec s')) /\
  length (os_cons s') = length (os_cons s) /\
  (forall c, get (os_cons s') c = option_map (fun k => if oc_linked k then oc_insert path b k else k) (get (os_cons s) c)) /\
  os_active s' = put path b (os_active s) /\ os_alive s = true /\ os_alive s' = true /\ os_copies s' = os_copies s.
Proof.
  intros W B X. unfold ostep in B. destruct (get (os_prods s) p) eqn:P; [|injection B as <- <-; congruence].
  destruct (nth_error (os_closed s) b); [|injection B as <- <-; congruence].
  destruct (announce_spec path b (length (os_vec s)) [] (os_vec s) (os_cons s)) as (cons' & r' & E & N' & I & O & Len & U1 & U2);
    [lia|apply W|]. cbn [length app] in *. rewrite E in B. injection B as <- <-.
  exists (match lookup path (os_active s) with None => true | Some _ => false end). cbn.
  pose proof (alive_prod _ _ _ P) as A.
  repeat split; auto.
  - intros c. destruct (get (os_cons s) c) as [k|] eqn:G; cbn.
    + destruct (oc_linked k) eqn:K.
      * pose proof (v_linked _ W _ _ G K). rewrite U2, G; auto.
      * pose proof (v_unlinked _ W _ _ G K). congruence.
    + destruct (in_dec Nat.eq_dec c (os_vec s)) as [Hc|Hc]; [rewrite U2, G by auto|rewrite U1, G by auto]; auto.
  - unfold os_alive. cbn [os_prods]. rewrite (live_get _ _ _ P). auto.
Qed.

Lemma live_snoc {A} (t : table A) a : live (t ++ [Some a]) = true.
Proof. rewrite live_count, count_app. cbn. replace (count t + 1) with (S (count t)) by lia. auto. Qed.
Lemma live_set_none {A} (t : table A) k : live (set_nth k None t) = true -> live t = true.
Proof.
  revert k; induction t as [|x t IH]; intros [|k]; cbn; auto; destruct x; cbn; auto.
  apply IH.
Qed.
Lemma alive_step s o : os_alive (fst (ostep s o)) = true -> os_alive s = true.
Proof.
  unfold ostep, owith_cons; destruct o;
    repeat match goal with |- context [match ?x with _ => _ end] =>
             match x with context [match _ with _ => _ end] => fail 1 | _ => destruct x eqn:? end end;
    cbn [fst]; auto; try (intros _; eapply alive_prod; eassumption); try (intros _; eapply alive_task; eassumption).
  all: unfold os_alive in *; cbn [os_prods os_tasks]; congruence.
Qed.

Lemma owf_step s o : owf s -> owf (fst (ostep s o)).
Proof.
  intros W. pose proof (alive_step s o) as A. destruct (ostep s o) as [s' x] eqn:B. cbn [fst] in *.
  assert (A' : os_alive s = false -> os_alive s' = false).
  { destruct (os_alive s'); auto. intros H. rewrite (A eq_refl) in H. discriminate. }
  clear A.
  assert (S : forall s2 a v e f, s2 = OSys (os_active s) (os_vec s) (os_cons s) a v e f -> (os_alive s = false -> os_alive s2 = false) -> owf s2).
  { intros s2 a v e f -> Al. destruct W as [Wn Wb Wl Wu Wt Wa]. split; cbn [os_active os_vec os_cons]; auto. intros; apply Al; eauto. }
  destruct o.
  - unfold ostep in B. injection B as <- <-. eapply S; auto.
  - unfold ostep in B. destruct (nth_error (os_closed s) b); injection B as <- <-; [|exact W]. eapply S; auto.
  - (* OPublish *)
    rename B into B2.
    assert (D : x = OBad \/ x <> OBad) by (destruct x; auto; right; congruence). destruct D as [->|X].
    { unfold ostep in B2. destruct (get (os_prods s) p), (nth_error (os_closed s) b); try (injection B2 as <-; exact W).
      destruct (announce _ _ _ _ _ _); discriminate. }
    destruct (publish_step _ _ _ _ _ _ W B2 X) as (u & -> & N & I & O & Len & U & Ac & A1 & A2 & _).
    destruct W as [Wn Wb Wl Wu Wt Wa]. split; auto.
    + intros c Hc. rewrite Len. auto.
    + intros c k. rewrite U. destruct (get (os_cons s) c) as [k0|] eqn:G; cbn; [|discriminate]. intros [= <-] K.
      assert (oc_linked k0 = true) by (destruct (oc_linked k0) eqn:K0; congruence). eauto.
    + intros c k. rewrite U. destruct (get (os_cons s) c) as [k0|] eqn:G; cbn; [|discriminate]. intros [= <-] K.
      destruct (oc_linked k0) eqn:K0; [rewrite oc_insert_eta in K; cbn in K; congruence|]. apply A'. eauto.
    + intros c k. rewrite U. destruct (get (os_cons s) c) as [k0|] eqn:G; cbn; [|discriminate]. intros [= <-].
      destruct (oc_linked k0); [|eauto]. rewrite oc_insert_eta. cbn. destruct (without _ _); auto. rewrite app_nil_r. eauto.
    + rewrite Ac. apply NoDup_put. auto.
  - (* OTask *)
    unfold ostep in B. destruct (get (os_tasks s) k) as [[path b]|] eqn:K; [|injection B as <- <-; exact W].
    destruct (nth_error (os_closed s) b) as [[]|]; injection B as <- <-; try exact W.
    destruct W as [Wn Wb Wl Wu Wt Wa]. split; cbn in *; eauto. apply NoDup_remove. auto.
  - unfold ostep in B. destruct (get (os_prods s) p); injection B as <- <-; exact W.
  - (* OConsume *)
    unfold ostep in B. destruct (get (os_prods s) p) eqn:P; injection B as <- <-; [|exact W].
    destruct W as [Wn Wb Wl Wu Wt Wa]. split; cbn in *; auto.
    + apply NoDup_snoc; auto. intros H. apply Wb in H. lia.
    + intros c. rewrite in_app_iff, app_length. cbn. intros [H|[<-|[]]]; [apply Wb in H|]; lia.
    + intros c k. rewrite get_app, in_app_iff. destr_if; [cbn; auto|eauto].
    + intros c k. rewrite get_app. destr_if; [intros [= <-]; discriminate|eauto].
    + intros c k. rewrite get_app. destr_if; [intros [= <-]; discriminate|eauto].
  - (* OPop *)
    unfold ostep in B. destruct (get (os_cons s) c) as [[pre u tok [|] l]|] eqn:G; try (injection B as <- <-; exact W).
    destruct W as [Wn Wb Wl Wu Wt Wa].
    destruct u as [|[suf b] u]; injection B as <- <-; split; cbn in *; rewrite ?set_nth_length; auto;
      intros d k; destruct (Nat.eq_dec c d) as [->|Ne]; rewrite ?(get_set_eq _ _ _ _ G), ?get_set_ne by auto; eauto;
      try (intros [= <-]; cbn; try congruence; intros K; specialize (Wl _ _ G); specialize (Wu _ _ G); cbn in *; auto; fail).
    all: intros [= <-]; cbn; intros; try congruence.
  - (* ORecv *)
    unfold ostep in B. destruct (get (os_cons s) c) as [[pre u tok [|] l]|] eqn:G; try (injection B as <- <-; exact W).
    destruct tok; [|destruct (l && os_alive s); [injection B as <- <-; exact W|]]; destruct W as [Wn Wb Wl Wu Wt Wa];
    injection B as <- <-; split; cbn in *; rewrite ?set_nth_length; auto;
      intros d k; destruct (Nat.eq_dec c d) as [->|Ne]; rewrite ?(get_set_eq _ _ _ _ G), ?get_set_ne by auto; eauto;
      try (intros [= <-]; cbn; try congruence; intros K; specialize (Wl _ _ G); specialize (Wu _ _ G); cbn in *; auto; fail).
  - (* OCancel *)
    unfold ostep in B. destruct (get (os_cons s) c) as [[pre u tok [|] l]|] eqn:G; try (injection B as <- <-; exact W).
    destruct W as [Wn Wb Wl Wu Wt Wa];
    injection B as <- <-; split; cbn in *; rewrite ?set_nth_length; auto;
      intros d k; destruct (Nat.eq_dec c d) as [->|Ne]; rewrite ?(get_set_eq _ _ _ _ G), ?get_set_ne by auto; eauto;
      try (intros [= <-]; cbn; try congruence; intros K; specialize (Wl _ _ G); specialize (Wu _ _ G); cbn in *; auto; fail).
  - (* OCDrop *)
    unfold ostep in B. destruct (get (os_cons s) c) as [k|] eqn:G; injection B as <- <-; [|exact W].
    destruct W as [Wn Wb Wl Wu Wt Wa]. split; cbn in *; rewrite ?set_nth_length; auto;
      intros d k0; destruct (Nat.eq_dec c d) as [->|Ne]; rewrite ?(get_set_eq _ _ _ _ G), ?get_set_ne by auto; eauto; discriminate.
  - unfold ostep in B. destruct (get (os_cons s) c); injection B as <- <-; [|exact W]. eapply S; auto.
  - (* OCloneLink *)
    unfold ostep in B. destruct (get (os_copies s) k) as [[pre u]|] eqn:G; injection B as <- <-; [|exact W].
    destruct W as [Wn Wb Wl Wu Wt Wa]. destruct (os_alive s) eqn:Al; split; cbn in *; auto.
    + apply NoDup_snoc; auto. intros H. apply Wb in H. lia.
    + intros c. rewrite in_app_iff, app_length. cbn. intros [H|[<-|[]]]; [apply Wb in H|]; lia.
    + intros c k0. rewrite get_app, in_app_iff. destr_if; [cbn; auto|eauto].
    + intros c k0. rewrite get_app. destr_if; [intros [= <-]; discriminate|]. intros H1 H2. pose proof (Wu _ _ H1 H2); congruence.
    + intros c k0. rewrite get_app. destr_if; [intros [= <-]; discriminate|eauto].
    + intros c. rewrite app_length. intros H; apply Wb in H; lia.
    + intros c k0. rewrite get_app. destr_if; [intros [= <-]; discriminate|eauto].
    + intros c k0. rewrite get_app. destr_if; [intros [= <-]; discriminate|eauto].
  - unfold ostep in B. destruct (get (os_prods s) p); injection B as <- <-; [|exact W]. eapply S; auto.
  - unfold ostep in B. destruct (get (os_prods s) p); injection B as <- <-; [|exact W]. eapply S; auto.
  - (* OUnused *)
    unfold ostep in B. destruct (get (os_prods s) p) eqn:P; injection B as <- <-; [|exact W].
    destruct (pop_closed_suffix (os_cons s) (rev (os_vec s))) as (d & E & Hd).
    assert (E' : os_vec s = rev (pop_closed (os_cons s) (rev (os_vec s))) ++ rev d).
    { rewrite <- rev_app_distr, <- E, rev_involutive. auto. }
    destruct W as [Wn Wb Wl Wu Wt Wa]. split; cbn in *; auto.
    + rewrite E' in Wn. clear -Wn. induction (rev (pop_closed _ _)); [constructor|]. inversion Wn; subst. constructor; auto.
      rewrite in_app_iff in *; tauto.
    + intros c H. apply Wb. rewrite E'. apply in_app_iff; auto.
    + intros c k H K. pose proof (Wl _ _ H K) as I. rewrite E' in I. apply in_app_iff in I as [I|I]; auto.
      apply in_rev in I. apply Hd in I. congruence.
Qed.

Lemma owf_run s ops : owf s -> owf (fst (orun s ops)).
Proof.
  intros W. induction ops as [|o ops IH] using rev_ind; [exact W|].
  rewrite orun_snoc. destruct (orun s ops) as [s1 tr]. pose proof (owf_step s1 o IH) as X.
  destruct (ostep s1 o). exact X.
Qed.
