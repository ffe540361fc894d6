(** Receiving announcements. *)
From Coq Require Import NArith Arith List Lia Bool.
From Coq Require Import Init.Byte Strings.Byte.
From Verif.Model Require Import OriginSys Base Coding Message ErrorCode Stream Frame FrameSys Map ReceiverSys.
From Verif.Spec Require Import OriginSpec ReceiverSpec.
From Verif.Proofs Require Import TableP MapP BroadcastP OriginP OriginTop.
Import ListNotations.
Open Scope nat_scope.

Lemma rrun_snoc ops : forall s o, rrun s (ops ++ [o]) =
  let (s1, tr) := rrun s ops in let (s2, x) := rstep s1 o in (s2, tr ++ [(o, x)]).
Proof.
  induction ops as [|a ops IH]; intros s o; cbn [rrun app].
  - destruct (rstep s o); reflexivity.
  - destruct (rstep s a) as [s1 x]. rewrite IH. destruct (rrun s1 ops) as [s2 tr].
    destruct (rstep s2 o); reflexivity.
Qed.
Lemma rrun_app ops1 ops2 : forall s, rrun s (ops1 ++ ops2) =
  let (s1, tr1) := rrun s ops1 in let (s2, tr2) := rrun s1 ops2 in (s2, tr1 ++ tr2).
Proof.
  induction ops1 as [|a ops IH]; intros s; cbn [rrun app].
  - destruct (rrun s ops2); reflexivity.
  - destruct (rstep s a) as [s1 x]. rewrite IH. destruct (rrun s1 ops) as [s2 tr].
    destruct (rrun s2 ops2); reflexivity.
Qed.

Lemma live_snoc_ev p tr e : live_at p (tr ++ [e]) = liveness p (live_at p tr) e.
Proof. unfold live_at. rewrite fold_left_app. reflexivity. Qed.
Lemma taken_snoc tr e : taken (tr ++ [e]) = taken tr ++ taken_of e.
Proof. unfold taken. rewrite flat_map_app. cbn. rewrite app_nil_r. reflexivity. Qed.
Lemma rgot_snoc tr e : rgot (tr ++ [e]) = rgot tr ++ rgot_of e.
Proof. unfold rgot. rewrite flat_map_app. cbn. rewrite app_nil_r. reflexivity. Qed.
Lemma ends_snoc p tr e : ends_at p (tr ++ [e]) = ends_at p tr + ends_of p e.
Proof. unfold ends_at. rewrite map_app, list_sum_app. cbn. lia. Qed.
Lemma cleanups_snoc p tr e : cleanups_at p (tr ++ [e]) = cleanups_at p tr + cleanups_of p e.
Proof. unfold cleanups_at. rewrite map_app, list_sum_app. cbn. lia. Qed.
Lemma following_snoc tr e : following (tr ++ [e]) <-> following tr /\ left_by e = false.
Proof.
  unfold following. split.
  - intros H. split; [intros x Hx; apply H, in_or_app; auto|apply H, in_or_app; cbn; auto].
  - intros (H & E) x Hx. apply in_app_or in Hx. destruct Hx as [Hx|[<-|[]]]; auto.
Qed.

#[local] Arguments put : simpl never.
#[local] Arguments remove : simpl never.
#[local] Arguments lookup : simpl never.

(** While the stream is followed. *)
Record rinv (s : rsys) (tr : list revent) : Prop := {
  ri_over : rv_over s = None;
  ri_map : forall p, lookup p (rv_map s) = live_at p tr;
  ri_live : forall p b, lookup p (rv_map s) = Some b ->
    lookup p (os_active (rv_origin s)) = Some b /\ nth_error (os_closed (rv_origin s)) b = Some false;
  ri_task : forall k p b, get (os_tasks (rv_origin s)) k = Some (p, b) ->
    lookup p (os_active (rv_origin s)) = Some b;
  ri_has : forall p b, lookup p (os_active (rv_origin s)) = Some b ->
    exists k, get (os_tasks (rv_origin s)) k = Some (p, b);
  ri_one : forall k1 k2 p b1 b2, get (os_tasks (rv_origin s)) k1 = Some (p, b1) ->
    get (os_tasks (rv_origin s)) k2 = Some (p, b2) -> k1 = k2;
  ri_dead : forall p b, lookup p (os_active (rv_origin s)) = Some b -> lookup p (rv_map s) = None ->
    nth_error (os_closed (rv_origin s)) b = Some true;
  ri_len : length (rv_bcasts s) = length (os_closed (rv_origin s));
  ri_taken : forall p b, In (p, b) (taken tr) <-> exists r, nth_error (rv_bcasts s) b = Some (p, r);
  ri_path : forall p b, lookup p (os_active (rv_origin s)) = Some b -> exists r, nth_error (rv_bcasts s) b = Some (p, r);
  ri_shut : forall p b, In (p, b) (taken tr) ->
    (nth_error (os_closed (rv_origin s)) b = Some false <-> lookup p (rv_map s) = Some b);
  ri_count : forall p, ends_at p tr = cleanups_at p tr +
    match lookup p (os_active (rv_origin s)), lookup p (rv_map s) with Some _, None => 1 | _, _ => 0 end;
  ri_prod : get (os_prods (rv_origin s)) 0 = Some tt }.

Lemma rinv_new pre : rinv (rsys_new pre) [].
Proof.
  split; cbn; auto; try discriminate; try tauto.
  - intros [|k] p b; cbn; discriminate.
  - intros [|k1] k2 p b1 b2; cbn; discriminate.
  - intros p [|b]; cbn; split; try tauto; intros (r & E); discriminate.
Qed.

(** Steps leaving alone what matters. *)
Lemma rinv_quiet s tr o x s' : rinv s tr -> rv_over s' = None -> rv_map s' = rv_map s ->
  os_active (rv_origin s') = os_active (rv_origin s) -> os_closed (rv_origin s') = os_closed (rv_origin s) ->
  os_tasks (rv_origin s') = os_tasks (rv_origin s) -> os_prods (rv_origin s') = os_prods (rv_origin s) ->
  (forall b, option_map fst (nth_error (rv_bcasts s') b) = option_map fst (nth_error (rv_bcasts s) b)) ->
  length (rv_bcasts s') = length (rv_bcasts s) ->
  taken_of (o, x) = [] -> (forall p, liveness p (live_at p tr) (o, x) = live_at p tr) ->
  (forall p, ends_of p (o, x) = 0) -> (forall p, cleanups_of p (o, x) = 0) ->
  rinv s' (tr ++ [(o, x)]).
Proof.
  intros [] E0 E1 E2 E3 E4 E5 E6 E7 E8 E9 E10 E11.
  assert (BC : forall p b, (exists r, nth_error (rv_bcasts s') b = Some (p, r)) <-> exists r, nth_error (rv_bcasts s) b = Some (p, r)).
  { intros p b. specialize (E6 b). destruct (nth_error (rv_bcasts s') b) as [[p1 r1]|], (nth_error (rv_bcasts s) b) as [[p2 r2]|]; cbn in E6;
      try discriminate; try (injection E6 as <-); split; intros (r & E); try discriminate; injection E as <- <-; eauto. }
  split; rewrite ?E1, ?E2, ?E3, ?E4, ?E5, ?taken_snoc, ?E8, ?app_nil_r; auto.
  - intros p. rewrite live_snoc_ev, E9. auto.
  - congruence.
  - intros p b. rewrite BC. auto.
  - intros p b H. rewrite BC. auto.
  - intros p. rewrite ends_snoc, cleanups_snoc, E10, E11, !Nat.add_0_r. auto.
Qed.

Lemma unused_fields o p o' x : ostep o (OUnused p) = (o', x) ->
  os_active o' = os_active o /\ os_closed o' = os_closed o /\ os_tasks o' = os_tasks o /\ os_prods o' = os_prods o.
Proof. cbn. destruct (get (os_prods o) p); intros E; injection E as <- <-; auto. Qed.

Lemma local_fields o op o' x : local op = true -> (forall k, op <> OTask k) -> ostep o op = (o', x) ->
  os_active o' = os_active o /\ os_closed o' = os_closed o /\ os_tasks o' = os_tasks o /\ os_prods o' = os_prods o.
Proof.
  intros L N H. destruct op; try discriminate L; try (exfalso; eapply N; reflexivity); cbn in H.
  - destruct (get (os_cons o) c) as [[pre u tok [] l]|]; try (injection H as <- <-; auto).
    destruct u as [|[a b] u]; injection H as <- <-; auto.
  - destruct (get (os_cons o) c) as [[pre u tok [] l]|]; try (injection H as <- <-; auto).
    destruct tok; [injection H as <- <-; auto|]. destruct (l && os_alive o); injection H as <- <-; auto.
  - destruct (get (os_cons o) c) as [[pre u tok [] l]|]; injection H as <- <-; auto.
  - destruct (get (os_cons o) c); injection H as <- <-; auto.
  - destruct (get (os_cons o) c); injection H as <- <-; auto.
  - destruct (get (os_copies o) k) as [[pre u]|]; injection H as <- <-; auto.
Qed.

Lemma publish_fields o p path b o' x : ostep o (OPublish p path b) = (o', x) -> get (os_prods o) p = Some tt -> b < length (os_closed o) ->
  os_active o' = put path b (os_active o) /\ os_closed o' = os_closed o /\ os_tasks o' = os_tasks o ++ [Some (path, b)] /\ os_prods o' = os_prods o /\
  x = OUnique (match lookup path (os_active o) with None => true | Some _ => false end).
Proof.
  cbn. intros H P L. rewrite P in H. destruct (nth_error (os_closed o) b) eqn:E; [|apply nth_error_None in E; lia].
  destruct (OriginSys.announce (length (os_vec o)) 0 path b (os_cons o) (os_vec o)) as [cons vec]. injection H as <- <-. auto.
Qed.

Lemma oend_fields b o : os_active (oend b o) = os_active o /\ os_tasks (oend b o) = os_tasks o /\ os_prods (oend b o) = os_prods o /\
  os_closed (oend b o) = set_nth b true (os_closed o).
Proof.
  unfold oend. cbn. destruct (nth_error (os_closed o) b) eqn:E; cbn; auto. repeat split.
  apply nth_error_None in E. symmetry. revert b E. induction (os_closed o); intros [|b] H; cbn in *; auto; try lia. f_equal. apply IHl. lia.
Qed.

Lemma nth_set_true b c l : nth_error (set_nth b true l) c = if Nat.eqb c b then option_map (fun _ => true) (nth_error l c) else nth_error l c.
Proof.
  destruct (Nat.eqb_spec c b) as [->|N].
  - destruct (nth_error l b) eqn:E; cbn.
    + apply nth_error_set_eq, nth_error_Some. congruence.
    + apply nth_error_None. rewrite set_nth_length. apply nth_error_None. exact E.
  - apply nth_error_set_ne. auto.
Qed.

Lemma publish_result s tr path : rinv s tr ->
  let b := length (os_closed (rv_origin s)) in
  exists o2, ostep (fst (ostep (rv_origin s) ONew)) (OPublish 0 path b) =
    (o2, OUnique (match lookup path (os_active (rv_origin s)) with None => true | Some _ => false end)) /\
  os_active o2 = put path b (os_active (rv_origin s)) /\ os_closed o2 = os_closed (rv_origin s) ++ [false] /\
  os_tasks o2 = os_tasks (rv_origin s) ++ [Some (path, b)] /\ os_prods o2 = os_prods (rv_origin s).
Proof.
  intros I b. destruct (ostep (fst (ostep (rv_origin s) ONew)) (OPublish 0 path b)) as [o2 x] eqn:E.
  exists o2. destruct (publish_fields _ _ _ _ _ _ E) as (A & B & C & D & ->).
  - exact (ri_prod _ _ I).
  - cbn. rewrite app_length. cbn. unfold b. lia.
  - cbn in *. auto.
Qed.

Lemma rinv_step s tr o s' x : rinv s tr -> rstep s o = (s', x) -> left_by (o, x) = false -> rinv s' (tr ++ [(o, x)]).
Proof.
  intros I H LB. pose proof (ri_over _ _ I) as OV. unfold rstep in H. destruct o as [a|e| |o| |b|b|p|b].
  - rewrite OV in H. destruct a as [path|path].
    + destruct (publish_result s tr path I) as (o2 & E & A & B & C & D). cbn zeta in H. rewrite E in H. clear E.
      destruct (lookup path (os_active (rv_origin s))) eqn:L; [injection H as <- <-; discriminate|].
      injection H as <- <-. set (n := length (os_closed (rv_origin s))) in *.
      destruct I as [_ J1 J2 J3 J4 J5 J6 J7 J8 J9 J10 J11 J12].
      assert (NT : forall k b, get (os_tasks (rv_origin s)) k <> Some (path, b)).
      { intros k b K. apply J3 in K. congruence. }
      assert (LM : lookup path (rv_map s) = None).
      { destruct (lookup path (rv_map s)) eqn:M; [|reflexivity]. apply J2 in M. destruct M. congruence. }
      assert (LT : forall p b, lookup p (os_active (rv_origin s)) = Some b -> b < n).
      { intros p b K. apply J9 in K. destruct K as (r & K). apply nth_error_len in K. unfold n. lia. }
      split; cbn; rewrite ?A, ?B, ?C, ?D, ?app_length; auto.
      * intros p. rewrite lookup_put, live_snoc_ev. cbn. rewrite str_eqb_sym. rewrite J1. reflexivity.
      * intros p b. rewrite !lookup_put, nth_error_snoc. fold n. destruct (str_eqb_spec p path) as [->|N].
        -- intros [= <-]. rewrite Nat.eqb_refl. auto.
        -- intros K. apply J2 in K. destruct K as [K1 K2]. split; [exact K1|].
           apply LT in K1. destruct (Nat.eqb_spec b n); [lia|exact K2].
      * intros k p b. rewrite get_app, lookup_put. destruct (Nat.eqb_spec k (length (os_tasks (rv_origin s)))) as [->|Nk].
        -- intros [= <- <-]. rewrite str_eqb_refl. reflexivity.
        -- intros K. destruct (str_eqb_spec p path) as [->|N]; [|eauto]. exfalso. eapply NT, K.
      * intros p b. rewrite lookup_put. destruct (str_eqb_spec p path) as [->|N].
        -- intros [= <-]. exists (length (os_tasks (rv_origin s))). rewrite get_app, Nat.eqb_refl. reflexivity.
        -- intros K. apply J4 in K. destruct K as (k & K). exists k. apply get_snoc_old, K.
      * intros k1 k2 p b1 b2. rewrite !get_app.
        destruct (Nat.eqb_spec k1 (length (os_tasks (rv_origin s)))), (Nat.eqb_spec k2 (length (os_tasks (rv_origin s)))); try congruence.
        -- intros [= <- <-] K. exfalso. eapply NT, K.
        -- intros K [= <- <-]. exfalso. eapply NT, K.
        -- intros K1 K2. eapply J5; eauto.
      * intros p b. rewrite !lookup_put. destruct (str_eqb_spec p path) as [->|N]; [discriminate|].
        intros K M. rewrite nth_error_snoc. fold n. pose proof (LT _ _ K). destruct (Nat.eqb_spec b n); [lia|eauto].
      * intros p b. rewrite taken_snoc, in_app_iff, nth_error_snoc, J7. fold n. cbn.
        destruct (Nat.eqb_spec b n) as [->|N].
        -- split.
           ++ intros [K|[K|[]]]; [|injection K as <-; eauto]. apply J8 in K. destruct K as (r & K). apply nth_error_len in K. unfold n in K. lia.
           ++ intros (r & [= <- _]). auto.
        -- rewrite J8. split; [intros [K|[K|[]]]; [auto|congruence]|auto].
      * intros p b. rewrite lookup_put, nth_error_snoc, J7. fold n. destruct (str_eqb_spec p path) as [->|N].
        -- intros [= <-]. rewrite Nat.eqb_refl. eauto.
        -- intros K. pose proof (LT _ _ K). destruct (Nat.eqb_spec b n); [lia|auto].
      * intros p b. rewrite taken_snoc, in_app_iff, nth_error_snoc, lookup_put. fold n. cbn. intros [K|[[= <- <-]|[]]].
        -- pose proof (proj1 (J8 _ _) K) as (r & Kr). apply nth_error_len in Kr. rewrite J7 in Kr. fold n in Kr.
           destruct (Nat.eqb_spec b n); [lia|]. rewrite (J10 _ _ K). destruct (str_eqb_spec p path) as [->|N]; [|reflexivity].
           rewrite LM. split; [discriminate|]. intros [= <-]. lia.
        -- rewrite Nat.eqb_refl, str_eqb_refl. split; reflexivity.
      * intros p. rewrite ends_snoc, cleanups_snoc, !lookup_put. cbn. rewrite !Nat.add_0_r, J11.
        destruct (str_eqb_spec p path) as [->|N]; [|reflexivity]. rewrite L. reflexivity.
    + destruct (lookup path (rv_map s)) as [b|] eqn:M; [|injection H as <- <-; discriminate].
      injection H as <- <-. destruct (oend_fields b (rv_origin s)) as (A & B & C & D).
      destruct I as [_ J1 J2 J3 J4 J5 J6 J7 J8 J9 J10 J11 J12]. destruct (J2 _ _ M) as [M1 M2].
      split; cbn; rewrite ?A, ?B, ?C, ?D; auto.
      * intros p. rewrite lookup_remove, live_snoc_ev. cbn. rewrite str_eqb_sym, J1. reflexivity.
      * intros p c. rewrite lookup_remove, nth_set_true. destruct (str_eqb_spec p path) as [->|N]; [discriminate|].
        intros K. destruct (J2 _ _ K) as [K1 K2]. split; [exact K1|]. destruct (Nat.eqb_spec c b) as [->|Nb]; [|exact K2].
        destruct (J9 _ _ K1) as (r1 & R1), (J9 _ _ M1) as (r2 & R2). congruence.
      * intros p c. rewrite lookup_remove, nth_set_true. destruct (str_eqb_spec p path) as [->|N].
        -- intros K _. rewrite M1 in K. injection K as <-. rewrite Nat.eqb_refl, M2. reflexivity.
        -- intros K K2. rewrite (J6 _ _ K K2). destruct (Nat.eqb c b); reflexivity.
      * rewrite set_nth_length. exact J7.
      * intros p c. rewrite taken_snoc. cbn. rewrite app_nil_r. auto.
      * intros p c. rewrite taken_snoc. cbn. rewrite app_nil_r, nth_set_true, lookup_remove. intros K.
        pose proof (J10 _ _ K) as Q. destruct (Nat.eqb_spec c b) as [->|Nb].
        -- destruct (proj1 (J8 _ _) K) as (r1 & R1), (J9 _ _ M1) as (r2 & R2). rewrite R1 in R2. injection R2 as -> _.
           rewrite str_eqb_refl, M2. cbn. split; discriminate.
        -- destruct (str_eqb_spec p path) as [->|N]; [|exact Q]. rewrite Q, M. split; [congruence|discriminate].
      * intros p. rewrite ends_snoc, cleanups_snoc, lookup_remove. cbn. rewrite Nat.add_0_r, J11, str_eqb_sym.
        destruct (str_eqb_spec p path) as [->|N].
        -- rewrite M1, M. lia.
        -- lia.
  - rewrite OV in H. injection H as <- <-. discriminate.
  - rewrite OV in H. destruct (ostep (rv_origin s) (OUnused 0)) as [o1 y] eqn:E. destruct (unused_fields _ _ _ _ E) as (A & B & C & D).
    assert (Q : rinv (RSys o1 (rv_map s) None (rv_bcasts s) (rv_session s)) (tr ++ [(RUnused, RUnit)])).
    { eapply rinv_quiet; try exact I; try reflexivity; auto. }
    destruct y as [| | | | | | | | | | | | |[]]; injection H as <- <-; try exact Q. discriminate.
  - destruct (local o) eqn:L.
    2: { injection H as <- <-. eapply rinv_quiet; try exact I; try reflexivity; auto. intros p. cbn. destruct o; reflexivity || discriminate. }
    destruct (ostep (rv_origin s) o) as [o1 y] eqn:E. injection H as <- <-.
    assert (D : (exists k, o = OTask k) \/ forall k, o <> OTask k) by (destruct o; try (right; discriminate); eauto).
    destruct D as [[k ->]|NT].
    2: { destruct (local_fields _ _ _ _ L NT E) as (A & B & C & D). eapply rinv_quiet; try exact I; try reflexivity; auto.
         intros p. cbn. destruct o; try reflexivity. exfalso; eapply NT; reflexivity. }
    cbn in E. destruct (get (os_tasks (rv_origin s)) k) as [[path b]|] eqn:K.
    2: { injection E as <- <-. eapply rinv_quiet; try exact I; try reflexivity; auto. }
    destruct (nth_error (os_closed (rv_origin s)) b) as [[]|] eqn:CB; injection E as <- <-;
      [|eapply rinv_quiet; try exact I; try reflexivity; auto|eapply rinv_quiet; try exact I; try reflexivity; auto].
    destruct I as [_ J1 J2 J3 J4 J5 J6 J7 J8 J9 J10 J11 J12]. pose proof (J3 _ _ _ K) as KA.
    assert (M : lookup path (rv_map s) = None).
    { destruct (lookup path (rv_map s)) as [c|] eqn:M; [|reflexivity]. destruct (J2 _ _ M) as [M1 M2]. congruence. }
    split; cbn; auto.
    + intros p. rewrite live_snoc_ev. cbn. auto.
    + intros p c. rewrite lookup_remove. intros K1. destruct (str_eqb_spec p path) as [->|N]; [congruence|auto].
    + intros k1 p c. destruct (Nat.eq_dec k k1) as [->|Nk].
      * rewrite (get_set_eq _ _ _ _ K). discriminate.
      * rewrite get_set_ne by auto. intros K1. rewrite lookup_remove. destruct (str_eqb_spec p path) as [->|N]; [|eauto].
        exfalso. apply Nk. eapply J5; eauto.
    + intros p c. rewrite lookup_remove. destruct (str_eqb_spec p path) as [->|N]; [discriminate|]. intros K1.
      destruct (J4 _ _ K1) as (k1 & K2). exists k1. rewrite get_set_ne; [exact K2|]. intros ->. rewrite K in K2. congruence.
    + intros k1 k2 p b1 b2 K1 K2. destruct (Nat.eq_dec k k1) as [->|N1]; [rewrite (get_set_eq _ _ _ _ K) in K1; discriminate|].
      destruct (Nat.eq_dec k k2) as [->|N2]; [rewrite (get_set_eq _ _ _ _ K) in K2; discriminate|].
      rewrite get_set_ne in K1, K2 by auto. eapply J5; eauto.
    + intros p c. rewrite lookup_remove. destruct (str_eqb_spec p path) as [->|N]; [discriminate|]. eauto.
    + intros p c. rewrite taken_snoc. cbn. rewrite app_nil_r. auto.
    + intros p c. rewrite lookup_remove. destruct (str_eqb_spec p path) as [->|N]; [discriminate|]. auto.
    + intros p c. rewrite taken_snoc. cbn. rewrite app_nil_r. auto.
    + intros p. rewrite ends_snoc, cleanups_snoc, lookup_remove. cbn. rewrite Nat.add_0_r, J11, str_eqb_sym.
      destruct (str_eqb_spec p path) as [->|N]; [rewrite KA, M|]; lia.
  - injection H as <- <-. eapply rinv_quiet; try exact I; try reflexivity; auto.
  - destruct (rv_session s) eqn:SE; [injection H as <- <-; eapply rinv_quiet; try exact I; try reflexivity; auto|].
    destruct (nth_error (rv_bcasts s) b) as [[path []]|] eqn:NB; injection H as <- <-;
      [|eapply rinv_quiet; try exact I; try reflexivity; auto|eapply rinv_quiet; try exact I; try reflexivity; auto].
    assert (BC : forall c, option_map fst (nth_error (set_nth b (path, false) (rv_bcasts s)) c) = option_map fst (nth_error (rv_bcasts s) c)).
    { intros c. destruct (Nat.eq_dec b c) as [->|N]; [|rewrite nth_error_set_ne by auto; reflexivity].
      rewrite nth_error_set_eq by (eapply nth_error_len; eauto). rewrite NB. reflexivity. }
    assert (ALREADY : lookup path (rv_map s) <> Some b ->
      rinv (RSys (oend b (rv_origin s)) (rv_map s) (rv_over s) (set_nth b (path, false) (rv_bcasts s)) false) (tr ++ [(RRun b, RUnit)])).
    { intros NM. destruct (oend_fields b (rv_origin s)) as (A & B & C & D).
      eapply rinv_quiet; try exact I; try reflexivity; auto; cbn; [|apply set_nth_length].
      rewrite D. apply set_nth_same. assert (T : In (path, b) (taken tr)) by (apply (ri_taken _ _ I); eauto).
      apply (ri_shut _ _ I) in T. pose proof (nth_error_len _ _ _ NB) as LN. rewrite (ri_len _ _ I) in LN.
      destruct (nth_error (os_closed (rv_origin s)) b) as [[]|] eqn:CB; [reflexivity| |apply nth_error_None in CB; lia].
      exfalso. apply NM, T. reflexivity. }
    destruct (lookup path (rv_map s)) as [b'|] eqn:M; [destruct (Nat.eqb_spec b b') as [<-|Nb]|].
    + eapply rinv_quiet; try exact I; try reflexivity; auto. cbn. apply set_nth_length.
    + apply ALREADY. congruence.
    + apply ALREADY. discriminate.
  - destruct (nth_error (os_closed (rv_origin s)) b); injection H as <- <-; eapply rinv_quiet; try exact I; try reflexivity; auto.
  - injection H as <- <-; eapply rinv_quiet; try exact I; try reflexivity; auto.
  - destruct (nth_error (rv_bcasts s) b) as [[path []]|]; injection H as <- <-; eapply rinv_quiet; try exact I; try reflexivity; auto.
Qed.

Lemma rinv_run pre ops : forall s tr, rrun (rsys_new pre) ops = (s, tr) -> following tr -> rinv s tr.
Proof.
  induction ops as [|o ops IH] using rev_ind; intros s tr H F.
  - injection H as <- <-. apply rinv_new.
  - rewrite rrun_snoc in H. destruct (rrun (rsys_new pre) ops) as [s1 t1].
    destruct (rstep s1 o) as [s2 x] eqn:E. injection H as <- <-. apply following_snoc in F. destruct F as [F LB].
    eapply rinv_step; eauto.
Qed.

(** ** Messages *)
Lemma ended_exact pre ops s tr path : rrun (rsys_new pre) ops = (s, tr) -> following tr ->
  snd (rstep s (RMsg (Ended path))) =
  match live_at path tr with Some b => REnded path b | None => RLeft (Some NotFound) end.
Proof.
  intros R F. pose proof (rinv_run _ _ _ _ R F) as I. cbn. rewrite (ri_over _ _ I), (ri_map _ _ I).
  destruct (live_at path tr); reflexivity.
Qed.

Lemma active_exact pre ops s tr path : rrun (rsys_new pre) ops = (s, tr) -> following tr ->
  snd (rstep s (RMsg (Active path))) =
  match live_at path tr with
  | Some _ => RLeft (Some Duplicate)
  | None => if Nat.eqb (ends_at path tr) (cleanups_at path tr) then RAnnounced path (length (taken tr)) else RLeft (Some Duplicate)
  end.
Proof.
  intros R F. pose proof (rinv_run _ _ _ _ R F) as I. pose proof (ri_over _ _ I) as OV.
  destruct (publish_result s tr path I) as (o2 & E & _). unfold rstep. rewrite OV. cbn zeta. rewrite E.
  pose proof (ri_count _ _ I path) as C. rewrite (ri_map _ _ I) in C.
  assert (LT : length (taken tr) = length (os_closed (rv_origin s))).
  { rewrite <- (ri_len _ _ I). clear - R F. revert s tr R F. induction ops as [|o ops IH] using rev_ind; intros s tr R F.
    - injection R as <- <-. reflexivity.
    - rewrite rrun_snoc in R. destruct (rrun (rsys_new pre) ops) as [s1 t1] eqn:R1.
      destruct (rstep s1 o) as [s2 x] eqn:E. injection R as <- <-. apply following_snoc in F. destruct F as [F LB].
      specialize (IH _ _ eq_refl F). pose proof (rinv_run _ _ _ _ R1 F) as I. rewrite taken_snoc, app_length, IH.
      unfold rstep in E. rewrite (ri_over _ _ I) in E. destruct o as [[p|p]|e| |o| |b|b|p|b].
      + destruct (publish_result s1 t1 p I) as (o2 & E2 & _). cbn zeta in E. rewrite E2 in E.
        destruct (lookup p (os_active (rv_origin s1))); injection E as <- <-; [discriminate|]. cbn. rewrite app_length. reflexivity.
      + destruct (lookup p (rv_map s1)); injection E as <- <-; [|discriminate]. cbn. lia.
      + injection E as <- <-. discriminate.
      + destruct (ostep (rv_origin s1) (OUnused 0)) as [o1 y]. destruct y as [| | | | | | | | | | | | |[]]; injection E as <- <-; try discriminate; cbn; lia.
      + destruct (local o); [destruct (ostep (rv_origin s1) o)|]; injection E as <- <-; cbn; lia.
      + injection E as <- <-. cbn. lia.
      + destruct (rv_session s1); [injection E as <- <-; cbn; lia|].
        destruct (nth_error (rv_bcasts s1) b) as [[q []]|]; injection E as <- <-; cbn; rewrite ?set_nth_length; lia.
      + destruct (nth_error (os_closed (rv_origin s1)) b); injection E as <- <-; cbn; lia.
      + injection E as <- <-. cbn. lia.
      + destruct (nth_error (rv_bcasts s1) b) as [[q []]|]; injection E as <- <-; cbn; lia. }
  destruct (live_at path tr) as [b|] eqn:L.
  - rewrite <- (ri_map _ _ I) in L. apply (ri_live _ _ I) in L. destruct L as [-> _]. reflexivity.
  - destruct (lookup path (os_active (rv_origin s))); destruct (Nat.eqb_spec (ends_at path tr) (cleanups_at path tr)); try lia; cbn; [reflexivity|].
    rewrite LT. reflexivity.
Qed.

Lemma tidy_none s tr path : rinv s tr -> tidy s -> live_at path tr = None -> lookup path (os_active (rv_origin s)) = None.
Proof.
  intros I T L. destruct (lookup path (os_active (rv_origin s))) as [b|] eqn:A; [|reflexivity].
  rewrite <- (ri_map _ _ I) in L. pose proof (ri_dead _ _ I _ _ A L) as D. destruct (ri_has _ _ I _ _ A) as (k & K).
  specialize (T k). cbn in T. rewrite K, D in T. discriminate.
Qed.

Lemma active_tidy pre ops s tr path : rrun (rsys_new pre) ops = (s, tr) -> following tr -> tidy s ->
  snd (rstep s (RMsg (Active path))) =
  match live_at path tr with
  | Some _ => RLeft (Some Duplicate)
  | None => RAnnounced path (length (taken tr))
  end.
Proof.
  intros R F T. pose proof (rinv_run _ _ _ _ R F) as I. rewrite (active_exact _ _ _ _ _ R F).
  destruct (live_at path tr) eqn:L; [reflexivity|]. pose proof (ri_count _ _ I path) as C.
  rewrite (tidy_none _ _ _ I T L) in C. rewrite Nat.add_0_r in C. rewrite C, Nat.eqb_refl. reflexivity.
Qed.

(** ** Availability *)
Lemma closed_exact pre ops s tr p b : rrun (rsys_new pre) ops = (s, tr) -> following tr -> In (p, b) (taken tr) ->
  snd (rstep s (RIsClosed b)) = RClosed (match live_at p tr with Some b' => negb (Nat.eqb b' b) | None => true end).
Proof.
  intros R F T. pose proof (rinv_run _ _ _ _ R F) as I. pose proof (ri_shut _ _ I _ _ T) as S.
  apply (ri_taken _ _ I) in T. destruct T as (r & T). apply nth_error_len in T. rewrite (ri_len _ _ I) in T.
  cbn. destruct (nth_error (os_closed (rv_origin s)) b) as [c|] eqn:C; [|apply nth_error_None in C; lia].
  cbn. rewrite (ri_map _ _ I) in S. f_equal. destruct (live_at p tr) as [b'|].
  - destruct (Nat.eqb_spec b' b) as [->|N]; cbn.
    + pose proof (proj2 S eq_refl). congruence.
    + destruct c; [reflexivity|]. pose proof (proj1 S eq_refl). congruence.
  - destruct c; [reflexivity|]. pose proof (proj1 S eq_refl). congruence.
Qed.

Lemma lookup_tidy pre ops s tr p : rrun (rsys_new pre) ops = (s, tr) -> following tr -> tidy s ->
  snd (rstep s (RLookup p)) = RFound (live_at p tr).
Proof.
  intros R F T. pose proof (rinv_run _ _ _ _ R F) as I. cbn. f_equal.
  destruct (live_at p tr) as [b|] eqn:L; [|eapply tidy_none; eauto].
  rewrite <- (ri_map _ _ I) in L. apply (ri_live _ _ I) in L. tauto.
Qed.

(** ** After the stream *)
Lemma drop_map_closed s : forall o b,
  nth_error (os_closed (drop_map s o)) b = Some false <->
  nth_error (os_closed o) b = Some false /\ ~ exists p q, In (p, b) (rv_map s) /\ nth_error (rv_bcasts s) b = Some (q, false).
Proof.
  unfold drop_map. induction (rv_map s) as [|[p c] m IH]; intros o b; cbn.
  - split; [intros H; split; [exact H|intros (p & q & [] & _)]|tauto].
  - rewrite IH. destruct (nth_error (rv_bcasts s) c) as [[q []]|] eqn:E.
    + split; intros (A & B); (split; [exact A|]); intros (p1 & q1 & H & K); apply B; [|eauto].
      destruct H as [[= <- <-]|H]; [congruence|eauto].
    + destruct (oend_fields c o) as (_ & _ & _ & D). rewrite D, nth_set_true. destruct (Nat.eqb_spec b c) as [->|N].
      * split; [intros (A & _); destruct (nth_error (os_closed o) c); discriminate|].
        intros (_ & B). exfalso. apply B. exists p, q. auto.
      * split; intros (A & B); (split; [exact A|]); intros (p1 & q1 & H & K); apply B; [|eauto].
        destruct H as [[= <- <-]|H]; [congruence|eauto].
    + split; intros (A & B); (split; [exact A|]); intros (p1 & q1 & H & K); apply B; [|eauto].
      destruct H as [[= <- <-]|H]; [congruence|eauto].
Qed.
Lemma drop_map_length s : forall o, length (os_closed (drop_map s o)) = length (os_closed o).
Proof.
  unfold drop_map. induction (rv_map s) as [|[p c] m IH]; intros o; cbn; [reflexivity|]. rewrite IH.
  destruct (nth_error (rv_bcasts s) c) as [[q []]|]; auto.
  destruct (oend_fields c o) as (_ & _ & _ & D). rewrite D. apply set_nth_length.
Qed.
Lemma odrop_closed o p : os_closed (fst (ostep o (ODrop p))) = os_closed o.
Proof. cbn. destruct (get (os_prods o) p); reflexivity. Qed.

(** Once the loop is left, an open broadcast has its task. *)
Record rleft (s : rsys) : Prop := {
  rl_over : rv_over s <> None;
  rl_map : rv_map s = [];
  rl_len : length (rv_bcasts s) = length (os_closed (rv_origin s));
  rl_open : forall b, nth_error (os_closed (rv_origin s)) b = Some false -> exists p, nth_error (rv_bcasts s) b = Some (p, true) }.

Lemma rinv_open s tr b : rinv s tr -> nth_error (os_closed (rv_origin s)) b = Some false ->
  exists p r, nth_error (rv_bcasts s) b = Some (p, r) /\ In (p, b) (rv_map s).
Proof.
  intros I C. pose proof (nth_error_len _ _ _ C) as L. rewrite <- (ri_len _ _ I) in L.
  destruct (nth_error (rv_bcasts s) b) as [[p r]|] eqn:B; [|apply nth_error_None in B; lia].
  exists p, r. split; [reflexivity|]. apply lookup_In.
  apply (ri_shut _ _ I p b); [|exact C]. apply (ri_taken _ _ I). eauto.
Qed.

Lemma rleft_leave s tr o bs e : rinv s tr -> os_closed o = os_closed (rv_origin s) -> bs = rv_bcasts s -> rleft (leave s o bs e).
Proof.
  intros I E ->. split; unfold leave; cbn [rv_origin rv_map rv_bcasts rv_over rv_session]; [discriminate|reflexivity| |]; rewrite ?odrop_closed, ?drop_map_length, ?E.
  - apply (ri_len _ _ I).
  - intros b H. apply drop_map_closed in H. destruct H as [H N]. rewrite E in H.
    destruct (rinv_open _ _ _ I H) as (p & r & K & D). exists p. rewrite K. destruct r; [reflexivity|]. exfalso. apply N. eauto.
Qed.

Lemma rleft_first s tr o s' x : rinv s tr -> rstep s o = (s', x) -> left_by (o, x) = true -> rleft s'.
Proof.
  intros I H L. pose proof (ri_over _ _ I) as OV. unfold rstep in H. destruct o as [[path|path]|e| |o| |b|b|p|b]; rewrite ?OV in H.
  - destruct (publish_result s tr path I) as (o2 & E2 & _ & C2 & _). cbn zeta in H. rewrite E2 in H.
    destruct (lookup path (os_active (rv_origin s))) as [v|]; injection H as <- <-; [|discriminate L]. clear v.
    set (n := length (os_closed (rv_origin s))) in *. destruct (oend_fields n o2) as (_ & _ & _ & D).
    split; unfold leave; cbn [rv_origin rv_map rv_bcasts rv_over rv_session]; [discriminate|reflexivity| |]; rewrite ?odrop_closed, ?drop_map_length, ?D, ?C2, ?set_nth_length, ?app_length.
    + cbn. rewrite (ri_len _ _ I). reflexivity.
    + intros b H1. apply drop_map_closed in H1. destruct H1 as [H1 N]. rewrite D, C2, nth_set_true, nth_error_snoc in H1. fold n in H1.
      destruct (Nat.eqb_spec b n) as [_|Nb]; [discriminate|].
      destruct (rinv_open _ _ _ I H1) as (p & r & K & Dj). exists p. rewrite nth_error_snoc, (ri_len _ _ I). fold n.
      destruct (Nat.eqb_spec b n); [contradiction|]. rewrite K. destruct r; [reflexivity|]. exfalso. apply N. eauto.
  - destruct (lookup path (rv_map s)); injection H as <- <-; [discriminate L|]. eapply rleft_leave; eauto.
  - injection H as <- <-. eapply rleft_leave; eauto.
  - destruct (ostep (rv_origin s) (OUnused 0)) as [o1 y] eqn:E. pose proof (unused_fields _ _ _ _ E) as U.
    destruct y as [| | | | | | | | | | | | |[]]; injection H as <- <-; try discriminate L. eapply rleft_leave; eauto. tauto.
  - destruct (local o); [destruct (ostep (rv_origin s) o)|]; injection H as <- <-; discriminate L.
  - injection H as <- <-; discriminate L.
  - destruct (rv_session s); [injection H as <- <-; discriminate L|].
    destruct (nth_error (rv_bcasts s) b) as [[q []]|]; injection H as <- <-; discriminate L.
  - destruct (nth_error (os_closed (rv_origin s)) b); injection H as <- <-; discriminate L.
  - injection H as <- <-; discriminate L.
  - destruct (nth_error (rv_bcasts s) b) as [[q []]|]; injection H as <- <-; discriminate L.
Qed.

Lemma ostep_closed_local o op o' x : local op = true -> ostep o op = (o', x) -> os_closed o' = os_closed o.
Proof.
  intros L H. destruct op; try discriminate L; try (apply local_fields in H; [tauto|reflexivity|discriminate]).
  cbn in H. destruct (get (os_tasks o) k) as [[p b]|]; [|injection H as <- <-; auto].
  destruct (nth_error (os_closed o) b) as [[]|]; injection H as <- <-; auto.
Qed.

Lemma rleft_step s o s' x : rleft s -> rstep s o = (s', x) ->
  rleft s' /\ (o <> RSession -> rv_session s = true ->
    rv_session s' = true /\ os_closed (rv_origin s') = os_closed (rv_origin s) /\ rv_bcasts s' = rv_bcasts s).
Proof.
  intros W H. pose proof W as [OV M LN OP]. destruct (rv_over s) as [ov|] eqn:OE; [|congruence]. unfold rstep in H.
  destruct o as [a|e| |o| |b|b|p|b]; rewrite ?OE in H; try (injection H as <- <-; auto; fail).
  - destruct (local o) eqn:L; [|injection H as <- <-; auto]. destruct (ostep (rv_origin s) o) as [o1 y] eqn:E. injection H as <- <-.
    pose proof (ostep_closed_local _ _ _ _ L E) as C. split; [split|]; cbn; rewrite ?C; auto.
  - injection H as <- <-. split; [|congruence]. split; cbn; auto.
  - destruct (rv_session s) eqn:SE; [injection H as <- <-; auto|].
    destruct (nth_error (rv_bcasts s) b) as [[q []]|] eqn:B; try (injection H as <- <-; split; [assumption|discriminate]).
    rewrite M in H. cbn in H. injection H as <- <-. split; [|discriminate].
    destruct (oend_fields b (rv_origin s)) as (_ & _ & _ & D). split; cbn; rewrite ?D, ?set_nth_length; auto.
    intros c. rewrite nth_set_true. destruct (Nat.eqb_spec c b) as [->|N].
    + destruct (nth_error (os_closed (rv_origin s)) b); discriminate.
    + rewrite nth_error_set_ne; auto.
  - destruct (nth_error (os_closed (rv_origin s)) b); injection H as <- <-; auto.
  - destruct (nth_error (rv_bcasts s) b) as [[q []]|]; injection H as <- <-; auto.
Qed.

Lemma rleft_run ops : forall s s' tr, rleft s -> rrun s ops = (s', tr) ->
  rleft s' /\ (~ In RSession ops -> rv_session s = true ->
    rv_session s' = true /\ os_closed (rv_origin s') = os_closed (rv_origin s) /\ rv_bcasts s' = rv_bcasts s).
Proof.
  induction ops as [|o ops IH]; cbn; intros s s' tr W H.
  - injection H as <- <-. auto.
  - destruct (rstep s o) as [s1 x] eqn:E. destruct (rrun s1 ops) as [s2 t] eqn:R. injection H as <- <-.
    destruct (rleft_step _ _ _ _ W E) as [W1 K1]. destruct (IH _ _ _ W1 R) as [W2 K2]. split; [exact W2|].
    intros N S. destruct K1 as (A & B & C); [intros ->; auto|exact S|]. destruct K2 as (A2 & B2 & C2); [tauto|exact A|].
    split; [exact A2|]. split; congruence.
Qed.

Lemma tasks_run pre ops : forall s tr, rrun (rsys_new pre) ops = (s, tr) -> following tr -> ~ In RSession ops ->
  rv_session s = true /\ forall b p r, nth_error (rv_bcasts s) b = Some (p, r) -> r = true.
Proof.
  induction ops as [|o ops IH] using rev_ind; intros s tr R F N.
  - injection R as <- <-. split; [reflexivity|]. intros [|b] p r; discriminate.
  - rewrite rrun_snoc in R. destruct (rrun (rsys_new pre) ops) as [s1 t1] eqn:R1.
    destruct (rstep s1 o) as [s2 x] eqn:E. injection R as <- <-. apply following_snoc in F. destruct F as [F LB].
    destruct (IH _ _ eq_refl F) as [S0 T]; [intros K; apply N, in_or_app; auto|]. assert (O : o <> RSession) by (intros ->; apply N, in_or_app; cbn; auto).
    pose proof (rinv_run _ _ _ _ R1 F) as I. clear IH N.
    unfold rstep in E. rewrite ?(ri_over _ _ I) in E. destruct o as [[p|p]|e| |o| |b|b|p|b].
    + destruct (publish_result s1 t1 p I) as (o2 & E2 & _). cbn zeta in E. rewrite E2 in E.
      destruct (lookup p (os_active (rv_origin s1))); injection E as <- <-; [discriminate|]. cbn. split; [exact S0|].
      intros b q r. rewrite nth_error_snoc. destruct (Nat.eqb b (length (rv_bcasts s1))); [|apply T].
      intros [= <- <-]. reflexivity.
    + destruct (lookup p (rv_map s1)); injection E as <- <-; [|discriminate]. auto.
    + injection E as <- <-. discriminate.
    + destruct (ostep (rv_origin s1) (OUnused 0)) as [o1 y]. destruct y as [| | | | | | | | | | | | |[]]; injection E as <- <-; try discriminate; auto.
    + destruct (local o); [destruct (ostep (rv_origin s1) o)|]; injection E as <- <-; auto.
    + congruence.
    + rewrite S0 in E. injection E as <- <-. auto.
    + destruct (nth_error (os_closed (rv_origin s1)) b); injection E as <- <-; auto.
    + injection E as <- <-. auto.
    + destruct (nth_error (rv_bcasts s1) b) as [[q []]|]; injection E as <- <-; auto.
Qed.

Lemma leave_open s o bs e b : nth_error (os_closed o) b = Some false -> (forall c p r, nth_error (rv_bcasts s) c = Some (p, r) -> r = true) ->
  nth_error (os_closed (rv_origin (leave s o bs e))) b = Some false.
Proof.
  intros C T. unfold leave. cbn [rv_origin]. rewrite odrop_closed. apply drop_map_closed. split; [exact C|].
  intros (p & q & _ & K). apply T in K. discriminate.
Qed.

Lemma stays_open pre ops1 s1 tr1 p b o s2 e ops2 s3 tr3 :
  rrun (rsys_new pre) ops1 = (s1, tr1) -> following tr1 -> live_at p tr1 = Some b ->
  rstep s1 o = (s2, RLeft e) -> rrun s2 ops2 = (s3, tr3) -> ~ In RSession (ops1 ++ ops2) ->
  snd (rstep s3 (RIsClosed b)) = RClosed false.
Proof.
  intros R1 F L E R2 N. pose proof (rinv_run _ _ _ _ R1 F) as I.
  destruct (tasks_run _ _ _ _ R1 F) as [S0 T]; [intros K; apply N, in_or_app; auto|].
  assert (C : nth_error (os_closed (rv_origin s2)) b = Some false /\ rv_session s2 = true).
  { rewrite <- (ri_map _ _ I) in L. apply (ri_live _ _ I) in L. destruct L as [_ C].
    unfold rstep in E. rewrite ?(ri_over _ _ I) in E. destruct o as [[q|q]|e1| |o| |c|c|q|c].
    - destruct (publish_result s1 tr1 q I) as (o2 & E2 & _ & C2 & _). cbn zeta in E. rewrite E2 in E.
      destruct (lookup q (os_active (rv_origin s1))); [|discriminate]. injection E as <- _. split; [|exact S0].
      apply leave_open; [|exact T]. destruct (oend_fields (length (os_closed (rv_origin s1))) o2) as (_ & _ & _ & D).
      rewrite D, C2, nth_set_true, nth_error_snoc. pose proof (nth_error_len _ _ _ C).
      destruct (Nat.eqb_spec b (length (os_closed (rv_origin s1)))); [lia|exact C].
    - destruct (lookup q (rv_map s1)); [discriminate|]. injection E as <- _. split; [|exact S0]. apply leave_open; auto.
    - injection E as <- _. split; [|exact S0]. apply leave_open; auto.
    - destruct (ostep (rv_origin s1) (OUnused 0)) as [o1 y] eqn:U. apply unused_fields in U.
      destruct y as [| | | | | | | | | | | | |[]]; try discriminate. injection E as <- _. split; [|exact S0]. apply leave_open; auto.
      destruct U as (_ & -> & _). exact C.
    - destruct (local o); [destruct (ostep (rv_origin s1) o)|]; discriminate.
    - discriminate.
    - rewrite S0 in E. discriminate.
    - destruct (nth_error (os_closed (rv_origin s1)) c); discriminate.
    - discriminate.
    - destruct (nth_error (rv_bcasts s1) c) as [[? []]|]; discriminate. }
  destruct C as [C S2]. assert (W : rleft s2) by (eapply rleft_first; eauto).
  destruct (rleft_run _ _ _ _ W R2) as [_ K]. destruct K as (_ & K & _); [intros K; apply N, in_or_app; auto|exact S2|].
  cbn. rewrite K, C. reflexivity.
Qed.

Lemma run_left pre ops : forall s tr, rrun (rsys_new pre) ops = (s, tr) -> (following tr /\ rinv s tr) \/ rleft s.
Proof.
  induction ops as [|o ops IH] using rev_ind; intros s tr R.
  - injection R as <- <-. left. split; [intros x []|apply rinv_new].
  - rewrite rrun_snoc in R. destruct (rrun (rsys_new pre) ops) as [s1 t1] eqn:R1.
    destruct (rstep s1 o) as [s2 x] eqn:E. injection R as <- <-. destruct (IH _ _ eq_refl) as [[F I]|W].
    + destruct (left_by (o, x)) eqn:L.
      * right. eapply rleft_first; eauto.
      * left. split; [apply following_snoc; auto|]. eapply rinv_step; eauto.
    + right. eapply rleft_step; eauto.
Qed.

Lemma closes pre ops s tr b : rrun (rsys_new pre) ops = (s, tr) -> ~ following tr -> In RSession ops ->
  (forall c, snd (rstep s (RRun c)) = RBad) -> snd (rstep s (RIsClosed b)) <> RClosed false.
Proof.
  intros R F S0 T. destruct (run_left _ _ _ _ R) as [[? _]|W]; [contradiction|].
  assert (S : rv_session s = false).
  { clear - R S0. revert s tr R S0. induction ops as [|o ops IH] using rev_ind; intros s tr R K; [destruct K|].
    rewrite rrun_snoc in R. destruct (rrun (rsys_new pre) ops) as [s1 t1].
    destruct (rstep s1 o) as [s2 x] eqn:E. injection R as <- <-. apply in_app_or in K. destruct K as [K|[->|[]]]; [|injection E as <- <-; reflexivity].
    specialize (IH _ _ eq_refl K). clear - E IH. unfold rstep in E. destruct o as [a|e| |o| |b|b|p|b].
    - destruct (rv_over s1); [injection E as <- <-; auto|]. destruct a as [path|path].
      + cbn zeta in E. destruct (ostep _ _) as [o2 [| | |[]| | | | | | | | | |]]; injection E as <- <-; auto.
      + destruct (lookup path (rv_map s1)); injection E as <- <-; auto.
    - destruct (rv_over s1); injection E as <- <-; auto.
    - destruct (rv_over s1); [injection E as <- <-; auto|]. destruct (ostep _ _) as [o2 [| | | | | | | | | | | | |[]]]; injection E as <- <-; auto.
    - destruct (local o); [destruct (ostep _ _)|]; injection E as <- <-; auto.
    - injection E as <- <-; auto.
    - rewrite IH in E. destruct (nth_error (rv_bcasts s1) b) as [[q []]|]; injection E as <- <-; auto.
    - destruct (nth_error (os_closed (rv_origin s1)) b); injection E as <- <-; auto.
    - injection E as <- <-; auto.
    - destruct (nth_error (rv_bcasts s1) b) as [[q []]|]; injection E as <- <-; auto. }
  cbn. destruct (nth_error (os_closed (rv_origin s)) b) as [c|] eqn:C; [|discriminate]. intros [= ->].
  destruct (rl_open _ W _ C) as (p & P). specialize (T b). cbn in T. rewrite S, P in T. discriminate.
Qed.

(** ** What the returned consumer sees *)
Lemma orun_snoc' ops : forall s o, orun s (ops ++ [o]) =
  let (s1, tr) := orun s ops in let (s2, x) := ostep s1 o in (s2, tr ++ [(o, x)]).
Proof.
  induction ops as [|a ops IH]; intros s o; cbn [orun app].
  - destruct (ostep s o); reflexivity.
  - destruct (ostep s a) as [s1 x]. rewrite IH. destruct (orun s1 ops) as [s2 tr].
    destruct (ostep s2 o); reflexivity.
Qed.

Lemma strips_app pre a b : strips pre (a ++ b) = strips pre a ++ strips pre b.
Proof. apply flat_map_app. Qed.

Lemma projects pre ops : forall s tr, rrun (rsys_new pre) ops = (s, tr) -> following tr ->
  exists oops otr, orun (rv_origin (rsys_new pre)) oops = (rv_origin s, otr) /\
    later pre otr = strips pre (taken tr) /\ got 0 otr = rgot tr.
Proof.
  induction ops as [|o ops IH] using rev_ind; intros s tr R F.
  - injection R as <- <-. exists [], []. auto.
  - rewrite rrun_snoc in R. destruct (rrun (rsys_new pre) ops) as [s1 t1] eqn:R1.
    destruct (rstep s1 o) as [s2 x] eqn:E. injection R as <- <-. apply following_snoc in F. destruct F as [F LB].
    destruct (IH _ _ eq_refl F) as (oops & otr & A & B & C). clear IH. pose proof (rinv_run _ _ _ _ R1 F) as I.
    assert (SAME : rv_origin s2 = rv_origin s1 -> taken_of (o, x) = [] -> rgot_of (o, x) = [] ->
      exists oops otr, orun (rv_origin (rsys_new pre)) oops = (rv_origin s2, otr) /\
        later pre otr = strips pre (taken (t1 ++ [(o, x)])) /\ got 0 otr = rgot (t1 ++ [(o, x)])).
    { intros E1 E2 E3. exists oops, otr. rewrite E1, taken_snoc, rgot_snoc, E2, E3, !app_nil_r. auto. }
    assert (ONE : forall op y, ostep (rv_origin s1) op = (rv_origin s2, y) -> relevant pre (op, y) = strips pre (taken_of (o, x)) -> got_of 0 (op, y) = rgot_of (o, x) ->
      exists oops otr, orun (rv_origin (rsys_new pre)) oops = (rv_origin s2, otr) /\
        later pre otr = strips pre (taken (t1 ++ [(o, x)])) /\ got 0 otr = rgot (t1 ++ [(o, x)])).
    { intros op y E1 E2 E3. exists (oops ++ [op]), (otr ++ [(op, y)]). rewrite orun_snoc', A, E1. split; [reflexivity|].
      rewrite later_snoc, got_snoc, taken_snoc, rgot_snoc, strips_app, B, C, E2, E3. auto. }
    unfold rstep in E. rewrite ?(ri_over _ _ I) in E. destruct o as [[p|p]|e| |o| |b|b|p|b].
    + destruct (publish_result s1 t1 p I) as (o2 & E2 & _). cbn zeta in E. rewrite E2 in E.
      destruct (lookup p (os_active (rv_origin s1))); injection E as <- <-; [discriminate|]. clear ONE SAME.
      set (n := length (os_closed (rv_origin s1))) in *.
      exists ((oops ++ [ONew]) ++ [OPublish 0 p n]), ((otr ++ [(ONew, OBroadcast n)]) ++ [(OPublish 0 p n, OUnique true)]).
      rewrite orun_snoc', orun_snoc', A. cbn [ostep fst] in E2 |- *. cbn [ostep]. cbn [ostep] in E2. rewrite E2. split; [reflexivity|].
      rewrite !later_snoc, !got_snoc, taken_snoc, rgot_snoc, strips_app, B, C. cbn. rewrite !app_nil_r. split; reflexivity.
    + destruct (lookup p (rv_map s1)) as [b|]; injection E as <- <-; [|discriminate]. cbn [rv_origin] in *. unfold oend in *.
      destruct (ostep (rv_origin s1) (OEnd b)) as [o1 y] eqn:Q. apply (ONE (OEnd b) y); auto.
    + injection E as <- <-. discriminate.
    + destruct (ostep (rv_origin s1) (OUnused 0)) as [o1 y] eqn:Q.
      assert (o1 = rv_origin s2) as -> by (destruct y as [| | | | | | | | | | | | |[]]; injection E as <- <-; try discriminate; reflexivity).
      apply (ONE _ _ Q); clear Q; destruct y as [| | | | | | | | | | | | |[]]; injection E as E1 <-; reflexivity.
    + destruct (local o) eqn:LO; [|injection E as <- <-; apply SAME; try reflexivity; destruct o; try reflexivity; destruct c; reflexivity].
      destruct (ostep (rv_origin s1) o) as [o1 y] eqn:Q. injection E as <- <-. apply (ONE _ _ Q).
      * destruct o; try discriminate LO; reflexivity.
      * destruct o; try discriminate LO; try reflexivity. cbn. destruct y; try (destruct c; reflexivity).
    + injection E as <- <-. apply SAME; reflexivity.
    + destruct (rv_session s1) eqn:S1; [injection E as <- <-; apply SAME; reflexivity|].
      destruct (nth_error (rv_bcasts s1) b) as [[q []]|]; injection E as <- <-; try (apply SAME; reflexivity).
      cbn [rv_origin] in *. unfold oend in *.
      destruct (lookup q (rv_map s1)) as [b'|]; [destruct (Nat.eqb b b'); [apply SAME; reflexivity|]|];
        destruct (ostep (rv_origin s1) (OEnd b)) as [o1 y] eqn:Q; apply (ONE (OEnd b) y); auto.
    + destruct (nth_error (os_closed (rv_origin s1)) b); injection E as <- <-; apply SAME; reflexivity.
    + injection E as <- <-. apply SAME; reflexivity.
    + destruct (nth_error (rv_bcasts s1) b) as [[q []]|]; injection E as <- <-; apply SAME; reflexivity.
Qed.

Lemma consumer_sees pre ops s tr : rrun (rsys_new pre) ops = (s, tr) -> following tr ->
  exists rest, rgot tr ++ rest = strips pre (taken tr) /\ (kept s -> forall x r, rest = x :: r -> yields s x).
Proof.
  intros R F. destruct (projects _ _ _ _ R F) as (oops & otr & A & B & C).
  destruct (consume_receives [] osys_new [] 0 pre [] (rv_origin (rsys_new pre)) 0) as (snap & SN & RC); [reflexivity|reflexivity|].
  assert (snap = []) as ->.
  { destruct snap as [|[x b] l]; [reflexivity|]. destruct SN as [_ SN]. pose proof (proj1 (SN x b) (or_introl eq_refl)) as K. discriminate K. }
  destruct (RC _ _ _ A) as (rest & E & K). exists rest. rewrite B, C in E. split; [exact E|].
  intros H x r RE. destruct (K ltac:(unfold reading, kept in *; cbn [rstep local] in H; destruct (ostep (rv_origin s) (OCDrop 0)); cbn in *; congruence) x r RE) as [D|[D1 D2]].
  - left. cbn [rstep local]. destruct (ostep (rv_origin s) (OPop 0)); cbn in *. congruence.
  - right. cbn [rstep local]. destruct (ostep (rv_origin s) (ORecv 0)) as [o1 y]; cbn [fst snd rstep local rv_origin] in *. split; [congruence|].
    destruct (ostep o1 (OPop 0)); cbn in *. congruence.
Qed.

Lemma live_taken p b tr : live_at p tr = Some b -> In (p, b) (taken tr).
Proof.
  induction tr as [|e tr IH] using rev_ind; [discriminate|]. rewrite live_snoc_ev, taken_snoc. intros H. apply in_or_app.
  destruct e as [[] []]; cbn in H |- *; auto; try (destruct (str_eqb _ _) eqn:E in H; [|auto; fail]); try discriminate.
  injection H as ->. destruct (str_eqb_spec path p) as [->|]; [auto|discriminate].
Qed.
Lemma asks pre ops s tr p b : rrun (rsys_new pre) ops = (s, tr) -> following tr -> ~ In RSession ops -> live_at p tr = Some b ->
  snd (rstep s (RSubscribe b)) = RAsked p.
Proof.
  intros R F N T. apply live_taken in T. pose proof (rinv_run _ _ _ _ R F) as I. apply (ri_taken _ _ I) in T. destruct T as (r & T).
  destruct (tasks_run _ _ _ _ R F N) as [_ K]. cbn. rewrite T. apply K in T. rewrite T. reflexivity.
Qed.

Lemma strips_nil l : strips [] l = l.
Proof. induction l as [|[p b] l IH]; [reflexivity|]. change (strips [] ((p, b) :: l)) with ((p, b) :: strips [] l). rewrite IH. reflexivity. Qed.
Lemma consumer_sees_all ops s tr : rrun (rsys_new []) ops = (s, tr) -> following tr ->
  exists rest, rgot tr ++ rest = taken tr /\ (kept s -> forall x r, rest = x :: r -> yields s x).
Proof. intros R F. rewrite <- (strips_nil (taken tr)). eapply consumer_sees; eauto. Qed.

Lemma taken_silent ops : forall s s' tr, rrun s ops = (s', tr) -> (forall a, ~ In (RMsg a) ops) -> taken tr = [].
Proof.
  induction ops as [|o ops IH]; cbn; intros s s' tr R N; [injection R as <- <-; reflexivity|].
  destruct (rstep s o) as [s1 x]. destruct (rrun s1 ops) as [s2 t] eqn:E. injection R as <- <-.
  unfold taken. cbn. fold (taken t). rewrite (IH _ _ _ E); [|intros a H; exact (N a (or_intror H))].
  destruct o; try reflexivity. destruct (N a (or_introl eq_refl)).
Qed.
