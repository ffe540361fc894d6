(** One origin and one of its consumers, while announcements spread. *)
From Coq Require Import NArith ZArith List Lia Bool Permutation.
From Coq Require Import Init.Byte Strings.Byte.
From Coq Require Import ZifyBool ZifyNat ZifyN.
From Verif.Model Require Import OriginSys Base Coding Message ErrorCode Stream Frame FrameSys Map Publisher ReceiverSys Spread.
From Verif.Spec Require Import OriginSpec SpreadSpec.
From Verif.Proofs Require Import TableP MapP BroadcastP OriginP OriginTop RelaySysP.
Import ListNotations.
Open Scope nat_scope.

Definition closedb (C : list bool) (b : nat) : Prop := nth b C false = true.
Definition grows (C C' : list bool) : Prop := length C <= length C' /\ forall b, closedb C b -> closedb C' b.
Lemma closedb_nth C b : closedb C b <-> nth_error C b = Some true.
Proof.
  unfold closedb. split; intros H.
  - destruct (nth_error C b) as [c|] eqn:E; [|rewrite (nth_overflow _ _ (proj1 (nth_error_None _ _) E)) in H; discriminate].
    rewrite (nth_error_nth _ _ _ E) in H. congruence.
  - rewrite (nth_error_nth _ _ _ H). reflexivity.
Qed.
Lemma grows_refl C : grows C C.
Proof. split; auto. Qed.
Lemma grows_trans A B C : grows A B -> grows B C -> grows A C.
Proof. intros [L H] [L' H']. split; [lia|auto]. Qed.
Lemma grows_snoc C : grows C (C ++ [false]).
Proof.
  split; [rewrite app_length; lia|]. intros b H. apply closedb_nth in H. apply closedb_nth.
  rewrite nth_error_app1; auto. apply nth_error_Some. congruence.
Qed.
Lemma closedb_set C b x : closedb (set_nth b true C) x <-> closedb C x \/ (x = b /\ b < length C).
Proof.
  rewrite !closedb_nth. destruct (Nat.eq_dec b x) as [->|N].
  - destruct (nth_error C x) eqn:E.
    + assert (L : x < length C) by (apply nth_error_Some; congruence). rewrite nth_error_set_eq by auto. tauto.
    + assert (L : length C <= x) by (apply nth_error_None; auto).
      assert (E' : nth_error (set_nth x true C) x = None) by (apply nth_error_None; rewrite set_nth_length; auto).
      rewrite E'. intuition (try discriminate); lia.
  - rewrite nth_error_set_ne by auto. intuition congruence.
Qed.
Lemma grows_set C b : grows C (set_nth b true C).
Proof. split; [rewrite set_nth_length; auto|]. intros x H. apply closedb_set. auto. Qed.
Lemma closedb_snoc C x : closedb (C ++ [false]) x <-> closedb C x.
Proof.
  split; [|apply grows_snoc]. rewrite !closedb_nth. intros H. destruct (lt_dec x (length C)) as [L|L].
  - rewrite nth_error_app1 in H; auto.
  - rewrite nth_error_app2 in H by lia. destruct (x - length C) as [|[|n]]; discriminate.
Qed.
Lemma closedb_lt C b : closedb C b -> b < length C.
Proof. rewrite closedb_nth. intros H. apply nth_error_Some. congruence. Qed.

(** * An origin with the publications [P] *)
Record node (C : list bool) (P : list (bytes * nat)) (o : osys) : Prop := {
  nd_owf : owf o;
  nd_closed : os_closed o = C;
  nd_len : length (os_tasks o) = length P;
  nd_task : forall k x, get (os_tasks o) k = Some x -> nth_error P k = Some x;
  nd_done : forall k x, get (os_tasks o) k = None -> nth_error P k = Some x -> closedb C (snd x);
  nd_has : forall path b, lookup path (os_active o) = Some b -> exists k, get (os_tasks o) k = Some (path, b);
  nd_once : NoDup (map fst P) -> forall k path b, get (os_tasks o) k = Some (path, b) -> lookup path (os_active o) = Some b;
  nd_bound : forall x, In x P -> snd x < length C }.

Definition calm (o : oop) : Prop := match o with ONew | OEnd _ => False | _ => True end.

Lemma NoDup_fst_nth {A B} (l : list (A * B)) i j a b c : NoDup (map fst l) -> nth_error l i = Some (a, b) -> nth_error l j = Some (a, c) -> i = j.
Proof.
  intros N I J. apply (map_nth_error fst) in I, J. cbn in *. rewrite NoDup_nth_error in N. apply N; [|congruence].
  apply nth_error_Some. congruence.
Qed.
Lemma NoDup_fst_in {A B} (l : list (A * B)) a b c : NoDup (map fst l) -> In (a, b) l -> In (a, c) l -> b = c.
Proof.
  intros N I J. apply In_nth_error in I as (i & I). apply In_nth_error in J as (j & J).
  pose proof (NoDup_fst_nth _ _ _ _ _ _ N I J) as ->. congruence.
Qed.
Lemma NoDup_app_l {A} (l m : list A) : NoDup (l ++ m) -> NoDup l.
Proof.
  induction l as [|a l IH]; cbn; intros H; [constructor|]. inversion H; subst. constructor; auto.
  intros K. apply H2, in_or_app. auto.
Qed.

Lemma node_keep C P o o' : node C P o -> owf o' -> os_active o' = os_active o -> os_tasks o' = os_tasks o -> os_closed o' = os_closed o -> node C P o'.
Proof. intros [] W A T Cl. split; rewrite ?A, ?T, ?Cl; auto. Qed.

Lemma node_step C P o op o' x : node C P o -> ostep o op = (o', x) -> calm op -> node C (P ++ pub_of (op, x)) o'.
Proof.
  intros N B Q. pose proof (owf_step o op (nd_owf _ _ _ N)) as W. rewrite B in W. cbn in W.
  destruct op; try contradiction.
  - (* publish *)
    assert (X : x = OBad \/ x <> OBad) by (destruct x; auto; right; congruence). destruct X as [->|X].
    { unfold ostep in B. destruct (get (os_prods o) p), (nth_error (os_closed o) b); try (injection B as <-; cbn [pub_of]; rewrite app_nil_r; exact N).
      destruct (OriginSys.announce _ _ _ _ _ _); discriminate. }
    assert (Pr : exists u, get (os_prods o) p = Some u) by (unfold ostep in B; destruct (get (os_prods o) p); eauto; injection B as <- <-; congruence).
    assert (L : b < length (os_closed o)).
    { unfold ostep in B. destruct (get (os_prods o) p); [|injection B as <- <-; congruence].
      destruct (nth_error (os_closed o) b) eqn:E; [|injection B as <- <-; congruence]. apply nth_error_Some. congruence. }
    assert (F : os_active o' = put path b (os_active o) /\ os_closed o' = os_closed o /\ os_tasks o' = os_tasks o ++ [Some (path, b)] /\ exists u, x = OUnique u).
    { unfold ostep in B. destruct Pr as (u & Pr). rewrite Pr in B. destruct (nth_error (os_closed o) b) eqn:E; [|apply nth_error_None in E; lia].
      destruct (OriginSys.announce (length (os_vec o)) 0 path b (os_cons o) (os_vec o)) as [cons vec]. injection B as <- <-. cbn. eauto. }
    destruct F as (Fa & Fc & Ft & u & ->). cbn [pub_of].
    destruct N as [N1 N2 N3 N4 N5 N6 N7 N8].
    assert (TG : forall k, get (os_tasks o') k = if Nat.eqb k (length (os_tasks o)) then Some (path, b) else get (os_tasks o) k).
    { intros k. rewrite Ft, get_app. reflexivity. }
    split; auto.
    + congruence.
    + rewrite Ft, !app_length, N3. reflexivity.
    + intros k y. rewrite TG. destruct (Nat.eqb_spec k (length (os_tasks o))) as [->|Nk].
      * intros [= <-]. rewrite nth_error_app2, N3, Nat.sub_diag by lia. reflexivity.
      * intros H. apply N4 in H. rewrite nth_error_app1; auto. apply nth_error_Some. congruence.
    + intros k y. rewrite TG. destruct (Nat.eqb_spec k (length (os_tasks o))) as [->|Nk]; [discriminate|].
      intros H H2. destruct (lt_dec k (length P)) as [Lk|Lk]; [rewrite nth_error_app1 in H2 by auto; eauto|].
      rewrite nth_error_app2 in H2 by lia. destruct (k - length P) as [|[|]] eqn:E; try discriminate. lia.
    + intros q c. rewrite Fa, lookup_put. destruct (str_eqb_spec q path) as [->|Nq].
      * intros [= <-]. exists (length (os_tasks o)). rewrite TG, Nat.eqb_refl. reflexivity.
      * intros H. destruct (N6 _ _ H) as (k & K). exists k. rewrite TG. destruct (Nat.eqb_spec k (length (os_tasks o))) as [->|]; auto.
        apply get_lt in K. lia.
    + intros Nd k q c. rewrite TG, Fa, lookup_put. destruct (Nat.eqb_spec k (length (os_tasks o))) as [->|Nk].
      * intros [= <- <-]. rewrite str_eqb_refl. reflexivity.
      * intros H. destruct (str_eqb_spec q path) as [->|Nq].
        -- exfalso. apply N4 in H. rewrite map_app in Nd. cbn in Nd. apply NoDup_remove_2 in Nd. rewrite app_nil_r in Nd.
           apply Nd. apply nth_error_In in H. apply (in_map fst) in H. exact H.
        -- apply N7 with (k := k); auto. rewrite map_app in Nd. apply NoDup_app_l in Nd. auto.
    + intros y Hy. apply in_app_or in Hy as [Hy|[<-|[]]]; auto. cbn. rewrite <- N2. auto.
  - (* cleanup *)
    unfold ostep in B. destruct (get (os_tasks o) k) as [[path b]|] eqn:K; [|injection B as <- <-; cbn; rewrite app_nil_r; auto].
    destruct (nth_error (os_closed o) b) as [[]|] eqn:E; injection B as <- <-; cbn [pub_of]; rewrite app_nil_r; auto.
    destruct N as [N1 N2 N3 N4 N5 N6 N7 N8].
    assert (TG : forall j, get (set_nth k None (os_tasks o)) j = if Nat.eqb j k then None else get (os_tasks o) j).
    { intros j. destruct (Nat.eqb_spec j k) as [->|Nj]; [eapply get_set_eq; eauto|apply get_set_ne; auto]. }
    split; auto; cbn [os_closed os_tasks os_active].
    + rewrite set_nth_length. auto.
    + intros j y. rewrite TG. destruct (Nat.eqb_spec j k); [discriminate|auto].
    + intros j y. rewrite TG. destruct (Nat.eqb_spec j k) as [->|Nj]; [|eauto]. intros _ H. apply N4 in K. rewrite K in H. injection H as <-.
      cbn. apply closedb_nth. rewrite <- N2. auto.
    + intros q c. rewrite lookup_remove. destruct (str_eqb_spec q path) as [->|Nq]; [discriminate|]. intros H. destruct (N6 _ _ H) as (j & J).
      exists j. rewrite TG. destruct (Nat.eqb_spec j k) as [->|]; auto. congruence.
    + intros Nd j q c. rewrite TG, lookup_remove. destruct (Nat.eqb_spec j k) as [->|Nj]; [discriminate|]. intros J.
      destruct (str_eqb_spec q path) as [->|Nq]; [|eapply N7; eauto]. exfalso. apply Nj. eapply NoDup_fst_nth; eauto.
  - unfold ostep in B. destruct (get (os_prods o) p); injection B as <- <-; cbn [pub_of]; rewrite app_nil_r; auto.
  - unfold ostep in B. destruct (get (os_prods o) p); injection B as <- <-; cbn [pub_of]; rewrite app_nil_r; auto.
    eapply node_keep; eauto.
  - unfold ostep, owith_cons in B. destruct (get (os_cons o) c) as [[pre u tok [] l]|]; [injection B as <- <-| |injection B as <- <-]; try (cbn [pub_of]; rewrite app_nil_r; auto; fail).
    destruct u as [|[s b] u]; injection B as <- <-; cbn [pub_of]; rewrite app_nil_r; eapply node_keep; eauto.
  - unfold ostep, owith_cons in B. destruct (get (os_cons o) c) as [[pre u tok [] l]|]; [|injection B as <- <-|injection B as <- <-]; try (cbn [pub_of]; rewrite app_nil_r; auto; fail).
    destruct tok; [|destruct (l && os_alive o)]; injection B as <- <-; cbn [pub_of]; rewrite app_nil_r; auto; eapply node_keep; eauto.
  - unfold ostep, owith_cons in B. destruct (get (os_cons o) c) as [[pre u tok [] l]|]; injection B as <- <-; cbn [pub_of]; rewrite app_nil_r; auto; eapply node_keep; eauto.
  - unfold ostep, owith_cons in B. destruct (get (os_cons o) c); injection B as <- <-; cbn [pub_of]; rewrite app_nil_r; auto; eapply node_keep; eauto.
  - unfold ostep in B. destruct (get (os_cons o) c); injection B as <- <-; cbn [pub_of]; rewrite app_nil_r; auto; eapply node_keep; eauto.
  - unfold ostep in B. destruct (get (os_copies o) k) as [[]|]; injection B as <- <-; cbn [pub_of]; rewrite app_nil_r; auto; eapply node_keep; eauto.
  - unfold ostep in B. destruct (get (os_prods o) p); injection B as <- <-; cbn [pub_of]; rewrite app_nil_r; auto; eapply node_keep; eauto.
  - unfold ostep in B. destruct (get (os_prods o) p); injection B as <- <-; cbn [pub_of]; rewrite app_nil_r; auto; eapply node_keep; eauto.
  - unfold ostep in B. destruct (get (os_prods o) p); injection B as <- <-; cbn [pub_of]; rewrite app_nil_r; auto; eapply node_keep; eauto.
Qed.

Lemma owf_closed c o : owf o -> owf (with_closed c o).
Proof. intros []. split; auto. Qed.

Lemma node_grow C C' P o : grows C C' -> node C P o -> node C' P (with_closed C' o).
Proof.
  intros [L G] [N1 N2 N3 N4 N5 N6 N7 N8]. split; auto.
  - apply owf_closed. auto.
  - intros k x H1 H2. apply G. eauto.
  - intros x Hx. apply N8 in Hx. lia.
Qed.

(** Settled origins hold exactly the broadcasts that are open. *)
Lemma node_open C P o path b : node C P o -> NoDup (map fst P) -> In (path, b) P -> ~ closedb C b -> lookup path (os_active o) = Some b.
Proof.
  intros N Nd I O. apply In_nth_error in I as (k & I).
  destruct (get (os_tasks o) k) as [x|] eqn:K.
  - pose proof (nd_task _ _ _ N _ _ K) as E. rewrite I in E. injection E as <-. eapply nd_once; eauto.
  - exfalso. apply O. exact (nd_done _ _ _ N _ _ K I).
Qed.
Lemma node_active C P o path b : node C P o -> lookup path (os_active o) = Some b -> In (path, b) P.
Proof. intros N H. destruct (nd_has _ _ _ N _ _ H) as (k & K). apply (nd_task _ _ _ N) in K. eapply nth_error_In; eauto. Qed.
Lemma node_settled C P o path b : node C P o -> (forall k, fst (ostep o (OTask k)) = o) -> lookup path (os_active o) = Some b -> ~ closedb C b.
Proof.
  intros N S H Cl. destruct (nd_has _ _ _ N _ _ H) as (k & K). specialize (S k). cbn in S. rewrite K in S.
  apply closedb_nth in Cl. rewrite (nd_closed _ _ _ N), Cl in S. cbn in S. apply (f_equal os_tasks) in S. cbn in S.
  assert (X : get (set_nth k None (os_tasks o)) k = None) by (eapply get_set_eq; eauto). rewrite S in X. congruence.
Qed.

(** * A consumer that has taken [G] *)
Definition tracks (C : list bool) (P G : list (bytes * nat)) (o : osys) (c : nat) (pre : bytes) (w : bool) : Prop :=
  exists k, get (os_cons o) c = Some k /\ oc_prefix k = pre /\ oc_recv k = w /\
  (forall suf b, In (suf, b) (G ++ oc_updates k) -> In (pre ++ suf, b) P) /\
  (NoDup (map fst P) -> NoDup (map fst (G ++ oc_updates k)) /\
     forall suf b, In (pre ++ suf, b) P -> ~ closedb C b -> In (suf, b) (G ++ oc_updates k)).

Lemma relevant_pub pre e suf b : In (suf, b) (relevant pre e) <-> In (pre ++ suf, b) (pub_of e).
Proof.
  destruct e as [[] []]; cbn; try tauto. destruct (without pre path) as [r|] eqn:E.
  - apply without_spec in E as ->. split; intros [[= ? ?]|[]]; left; subst; auto. f_equal. eapply app_inv_head; eauto.
  - split; [intros []|]. intros [[= -> ->]|[]]. assert (without pre (pre ++ suf) = Some suf) by (apply without_spec; auto). congruence.
Qed.

Lemma relevant_nodup pre e : NoDup (map fst (relevant pre e)).
Proof. destruct e as [[] []]; cbn; try constructor. destruct (without pre path); cbn; constructor; auto; constructor. Qed.

Lemma NoDup_app_intro {A} (l m : list A) : NoDup l -> NoDup m -> (forall a, In a l -> In a m -> False) -> NoDup (l ++ m).
Proof.
  induction l as [|a l IH]; cbn; auto. intros H1 H2 D. inversion H1; subst. constructor.
  - intros K. apply in_app_or in K as [K|K]; [auto|]. eapply D; eauto.
  - apply IH; auto. intros x X Y. eapply D; eauto.
Qed.

Lemma NoDup_app_apart {A} (l m : list A) a : NoDup (l ++ m) -> In a l -> In a m -> False.
Proof.
  induction l as [|y l IH]; cbn; intros N I J; [exact I|]. inversion N; subst. destruct I as [->|I]; auto.
  apply H1, in_or_app. auto.
Qed.

Lemma tracks_step C P G o op o' x c pre w k' : node C P o -> ostep o op = (o', x) -> tracks C P G o c pre w ->
  get (os_cons o') c = Some k' -> tracks C (P ++ pub_of (op, x)) (G ++ got_of c (op, x)) o' c pre (oc_recv k').
Proof.
  intros N B (k & K & E & R & T1 & T2) K'. destruct (queue_step _ _ _ _ _ _ _ (nd_owf _ _ _ N) B K K') as (E' & Q).
  assert (Q' : (G ++ got_of c (op, x)) ++ oc_updates k' = (G ++ oc_updates k) ++ relevant pre (op, x)).
  { rewrite <- app_assoc, Q, app_assoc, E. reflexivity. }
  exists k'. split; [exact K'|]. split; [congruence|]. split; [reflexivity|]. rewrite Q'. split.
  - intros suf b H. apply in_or_app. apply in_app_or in H as [H|H]; [left; auto|right; apply relevant_pub; auto].
  - intros Nd. rewrite map_app in Nd. pose proof (NoDup_app_l _ _ Nd) as Nd1. destruct (T2 Nd1) as (U1 & U2). split.
    + rewrite map_app. apply NoDup_app_intro; auto; [apply relevant_nodup|].
      intros s H1 H2. apply in_map_iff in H1 as ([s1 b1] & <- & H1). apply in_map_iff in H2 as ([s2 b2] & H3 & H2). cbn in H3. subst s2.
      apply T1 in H1. apply relevant_pub in H2. apply (in_map fst) in H1, H2. cbn in H1, H2.
      exact (NoDup_app_apart _ _ _ Nd H1 H2).
    + intros suf b H O. apply in_or_app. apply in_app_or in H as [H|H]; [left; auto|right; apply relevant_pub; auto].
Qed.
Lemma tracks_grow C C' P G o c pre w : grows C C' -> tracks C P G o c pre w -> tracks C' P G (with_closed C' o) c pre w.
Proof.
  intros [_ Gr] (k & K & E & R & T1 & T2). exists k. split; [exact K|]. split; [exact E|]. split; [exact R|]. split; [exact T1|].
  intros Nd. destruct (T2 Nd) as (U1 & U2). split; auto.
Qed.

Lemma strip_keys (pre : bytes) (l : list (bytes * nat)) : NoDup (map fst l) ->
  NoDup (map fst (flat_map (fun e => match strip_prefix pre (fst e) with Some suffix => [(suffix, snd e)] | None => [] end) l)).
Proof.
  induction l as [|[q b] l IH]; cbn; intros Nd; [constructor|]. inversion Nd; subst. destruct (strip_prefix pre q) as [s|] eqn:E; cbn; auto.
  constructor; auto. intros H. apply in_map_iff in H as ([s1 b1] & E1 & H). cbn in E1. subst s1. apply in_flat_map in H as ([q2 b2] & I & H). cbn in H.
  destruct (strip_prefix pre q2) as [s2|] eqn:E2; [|destruct H]. destruct H as [[= <- <-]|[]].
  apply strip_prefix_spec in E, E2. subst q q2. apply H1. apply (in_map fst) in I. exact I.
Qed.

Lemma tracks_new C P o p pre ks o' c x : node C P o -> ostep o (OConsume p pre ks) = (o', x) -> get (os_prods o) p = Some tt ->
  c = length (os_cons o) -> tracks C P [] o' c pre false.
Proof.
  intros N B Pr ->. cbn in B. rewrite Pr in B. injection B as <- <-. cbn.
  eexists. split; [cbn; rewrite get_app, Nat.eqb_refl; reflexivity|]. cbn.
  assert (I : forall suf b, In (suf, b) (snapshot_of pre ks (os_active o)) <-> lookup (pre ++ suf) (os_active o) = Some b).
  { intros suf b. unfold snapshot_of. rewrite in_flat_map. split.
    - intros ([q b2] & H & K). cbn in K. destruct (strip_prefix pre q) as [s|] eqn:E; [|destruct K]. destruct K as [[= <- <-]|[]].
      apply strip_prefix_spec in E as ->. apply (Permutation_in _ (shuffle_perm ks _)) in H. apply In_lookup; auto. apply N.
    - intros H. apply lookup_In in H. exists (pre ++ suf, b). split; [apply (Permutation_in _ (Permutation_sym (shuffle_perm ks _))); auto|].
      cbn. assert (E : strip_prefix pre (pre ++ suf) = Some suf) by (apply strip_prefix_spec; auto). rewrite E. left. reflexivity. }
  split; [reflexivity|]. split; [reflexivity|]. split.
  - intros suf b H. apply I in H. eapply node_active; eauto.
  - intros Nd. split.
    + unfold snapshot_of. apply strip_keys. eapply Permutation_NoDup; [apply Permutation_map, Permutation_sym, shuffle_perm|]. apply N.
    + intros suf b H O. apply I. eapply node_open; eauto.
Qed.
Lemma tracks_unwaiting C P G o c pre w k : tracks C P G o c pre w -> get (os_cons o) c = Some k -> oc_recv k = w.
Proof. intros (k2 & K & _ & R & _) H. congruence. Qed.

(** Several operations on one origin. *)
Lemma node_run C ops : forall P o o' ev, node C P o -> orun o ops = (o', ev) -> Forall calm ops -> node C (P ++ flat_map pub_of ev) o'.
Proof.
  induction ops as [|op ops IH]; intros P o o' ev N R F; cbn [orun] in R.
  - injection R as <- <-. cbn. rewrite app_nil_r. exact N.
  - destruct (ostep o op) as [o1 x] eqn:B. destruct (orun o1 ops) as [o2 t] eqn:R2. injection R as <- <-.
    pose proof (node_step _ _ _ _ _ _ N B (Forall_inv F)) as N1. pose proof (IH _ _ _ _ N1 R2 (Forall_inv_tail F)) as N2.
    cbn [flat_map]. rewrite app_assoc. exact N2.
Qed.
Lemma tracks_run C ops c pre w : forall P G o o' ev, node C P o -> orun o ops = (o', ev) -> Forall calm ops ->
  Forall (fun op => touches_cons c op = false) ops -> tracks C P G o c pre w ->
  tracks C (P ++ flat_map pub_of ev) (G ++ got c ev) o' c pre w /\ got c ev = [].
Proof.
  induction ops as [|op ops IH]; intros P G o o' ev N R F T K; cbn [orun] in R.
  - injection R as <- <-. cbn. rewrite !app_nil_r. auto.
  - destruct (ostep o op) as [o1 x] eqn:B. destruct (orun o1 ops) as [o2 t] eqn:R2. injection R as <- <-.
    pose proof (node_step _ _ _ _ _ _ N B (Forall_inv F)) as N1.
    pose proof K as (k & Kg & Kp & Kr & _). destruct (keep_cons _ _ _ _ _ _ (nd_owf _ _ _ N) B Kg (Forall_inv T)) as (k' & Kg' & Kr').
    pose proof (tracks_step _ _ _ _ _ _ _ _ _ _ _ N B K Kg') as K1. rewrite Kr', Kr in K1.
    destruct (IH _ _ _ _ _ N1 R2 (Forall_inv_tail F) (Forall_inv_tail T) K1) as (K2 & E2).
    assert (E1 : got_of c (op, x) = []).
    { pose proof (Forall_inv T) as T1. destruct op; cbn in *; auto. destruct x; auto. rewrite T1. auto. }
    cbn [flat_map]. unfold got in *. cbn [flat_map]. rewrite E1 in *. cbn [app] in *. rewrite app_nil_r in K2. rewrite app_assoc. split; auto.
Qed.
