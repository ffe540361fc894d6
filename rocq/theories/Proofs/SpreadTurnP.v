(** The publishing loop of an announce stream. *)
From Coq Require Import NArith ZArith List Lia Bool Permutation.
From Coq Require Import Init.Byte Strings.Byte.
From Coq Require Import ZifyBool ZifyNat ZifyN.
From Verif.Model Require Import OriginSys Base Coding Message ErrorCode Stream Frame FrameSys Map Publisher ReceiverSys Spread.
From Verif.Spec Require Import OriginSpec SpreadSpec.
From Verif.Proofs Require Import TableP MapP BroadcastP OriginP OriginTop RelaySysP SpreadP SpreadFrameP.
Import ListNotations.
Open Scope nat_scope.

Lemma filter_snoc {A} (f : A -> bool) l x : filter f (l ++ [x]) = filter f l ++ (if f x then [x] else []).
Proof. rewrite filter_app. cbn. destruct (f x); reflexivity. Qed.

Lemma in_fst_snoc (s : bytes) (l : list (bytes * nat)) x : In s (map fst (l ++ [x])) <-> In s (map fst l) \/ s = fst x.
Proof. rewrite map_app, in_app_iff. cbn. intuition congruence. Qed.

Lemma travel_fresh s pr w pp : travel s pr w pp -> pp = Fresh -> pr = Fresh /\ w = [].
Proof. intros H E. inversion H; subst; auto; discriminate. Qed.

Ltac hop_fields := cbn [hp_src hp_dst hp_cons hp_pre hp_ann hp_wire hp_map hp_left hp_open hp_runs an_queue an_gone an_closed an_active an_tasks an_over] in *.

(** It announces. *)
Lemma turn_got C os P P' G G' src c pre dst act T wire m lf runs op o o' suf b act' :
  hop_ok C os P G (Hop src c pre dst (Ann [] false [] act T false) wire m lf runs op) ->
  nth_error os src = Some o -> node C (P src) o -> ostep o (OPop c) = (o', OGot suf b) -> src <> dst ->
  (forall n, P' n = P n) -> (forall n d, G' n d = if Nat.eqb n src && Nat.eqb d c then G n d ++ [(suf, b)] else G n d) ->
  hop_ok C (set_nth src o' os) P' G' (Hop src c pre dst (Ann [] false [] act' (T ++ [(suf, b)]) false) (wire ++ [Active suf]) m lf runs op).
Proof.
  intros [(a & A & K) (r & Rr & K2) H3 H4 H5 H6 H7 H8 H9 H10 H11 H12 H13 H14] O N B Ne HP HG. hop_fields.
  assert (a = o) by congruence. subst a. specialize (K eq_refl).
  assert (L : src < length os) by (apply nth_error_Some; congruence).
  assert (K' : tracks C (P src) (G src c ++ [(suf, b)]) o' c pre false).
  { pose proof K as (k & Kg & Kp & Kr & _). pose proof B as B'. cbn in B'. rewrite Kg in B'. destruct k as [kp ku kt kr kl]. cbn in Kr. subst kr.
    destruct ku as [|[s1 b1] ku]; [discriminate|]. injection B' as Eo <- <-.
    assert (Kg' : get (os_cons o') c = Some (OCons kp ku kt false kl)) by (rewrite <- Eo; cbn; eapply get_set_eq; eauto).
    pose proof (tracks_step _ _ _ _ _ _ _ _ _ _ _ N B K Kg') as X. cbn in X. rewrite Nat.eqb_refl, !app_nil_r in X. exact X. }
  assert (EG : G' src c = G src c ++ [(suf, b)]) by (rewrite HG, !Nat.eqb_refl; reflexivity).
  split; hop_fields; rewrite ?HP, ?EG; auto.
  - exists o'. split; [apply nth_error_set_eq; auto|auto].
  - exists r. rewrite nth_error_set_ne by auto. auto.
  - intros s x I. apply in_app_or in I as [I|[[= <- <-]|[]]]; [auto|]. destruct K' as (k & _ & _ & _ & T1 & _). apply T1.
    apply in_or_app. left. apply in_or_app. right. left. reflexivity.
  - intros x I. apply in_app_or in I as [I|I]; apply in_or_app; auto.
  - intros s I. apply in_fst_snoc. apply in_app_or in I as [I|[[= <-]|[]]]; auto.
  - intros s x I. apply in_fst_snoc. eauto.
  - intros Nd. destruct (H14 Nd) as [J1 J2 J3 J4 J5 J6 J7 J8 J9 J10]. hop_fields.
    destruct K' as (k & _ & _ & _ & _ & T2). destruct (T2 Nd) as (ND & _). rewrite map_app in ND. apply NoDup_app_l in ND.
    assert (Nin : ~ In suf (map fst (G src c))).
    { rewrite map_app in ND. cbn in ND. apply NoDup_remove_2 in ND. rewrite app_nil_r in ND. exact ND. }
    assert (NinT : ~ In suf (map fst T)).
    { intros I. apply Nin. apply in_map_iff in I as (x & <- & I). apply in_map. auto. }
    split; hop_fields; auto.
    + rewrite map_app. cbn. apply NoDup_app_intro; auto; [constructor; auto; constructor|]. intros s I [<-|[]]. auto.
    + intros s x I Cl. destruct (J7 _ _ I Cl) as [?|(b0 & I0 & C0)]; auto. right. exists b0. split; auto. apply in_or_app; auto.
    + intros Lf s. destruct (J9 Lf s) as (pr & pp & X1 & X2 & X3 & X4). specialize (X4 eq_refl). rewrite filter_snoc. cbn [about].
      destruct (str_eqb_spec s suf) as [->|Ns].
      * assert (pp = Fresh).
        { destruct pp; auto; cbn in X4; exfalso; [apply NinT; auto|apply Nin; tauto]. }
        destruct (travel_fresh _ _ _ _ X2 H) as (-> & ->). exists Fresh, Live. split; [exact X1|]. split; [constructor|].
        split; [cbn; apply in_fst_snoc; auto|]. intros _. cbn. apply in_fst_snoc; auto.
      * exists pr, pp. rewrite app_nil_r. split; [exact X1|]. split; [exact X2|]. split.
        -- destruct pp; cbn in *; auto; [apply in_fst_snoc; auto|]. destruct X3 as (b0 & ? & ?). exists b0. split; auto. apply in_or_app; auto.
        -- intros _. destruct pp; cbn in *; rewrite ?in_fst_snoc; cbn; intuition congruence.
    + intros _ s x I. apply in_app_or in I as [I|[[= <- <-]|[]]].
      * destruct (J10 eq_refl _ _ I); auto. left. apply in_or_app; auto.
      * left. apply in_or_app. right. left. reflexivity.
Qed.

Lemma in_remove_nth {A} j (l : list A) x : In x (remove_nth j l) -> In x l.
Proof.
  unfold remove_nth. intros H. apply in_app_or in H as [H|H].
  - rewrite <- (firstn_skipn j l). apply in_or_app; auto.
  - rewrite <- (firstn_skipn (S j) l). apply in_or_app; auto.
Qed.
Lemma remove_nth_split {A} j (l : list A) x : nth_error l j = Some x -> exists l1 l2, l = l1 ++ x :: l2 /\ remove_nth j l = l1 ++ l2.
Proof.
  intros H. apply nth_error_split in H as (l1 & l2 & -> & <-). exists l1, l2. split; auto. unfold remove_nth.
  rewrite firstn_app, Nat.sub_diag, firstn_all, app_nil_r.
  replace (S (length l1)) with (length (l1 ++ [x])) by (rewrite app_length; cbn; lia).
  replace (l1 ++ x :: l2) with ((l1 ++ [x]) ++ l2) by (rewrite <- app_assoc; reflexivity).
  rewrite skipn_app, Nat.sub_diag, skipn_all. reflexivity.
Qed.

(** It says that a broadcast has ended. *)
Lemma turn_ended C os P G src c pre dst act T wire m lf runs op j suf b act' :
  hop_ok C os P G (Hop src c pre dst (Ann [] false [] act T false) wire m lf runs op) ->
  nth_error T j = Some (suf, b) -> closedb C b ->
  hop_ok C os P G (Hop src c pre dst (Ann [] false [] act' (remove_nth j T) false) (wire ++ [Ended suf]) m lf runs op).
Proof.
  intros [(a & A & K) (r & Rr & K2) H3 H4 H5 H6 H7 H8 H9 H10 H11 H12 H13 H14] Hj Cl. hop_fields.
  destruct (remove_nth_split _ _ _ Hj) as (l1 & l2 & ET & ER).
  split; hop_fields; eauto.
  - intros x I. apply H7. eapply in_remove_nth; eauto.
  - intros s I. apply in_app_or in I as [I|[[=]|[]]]; auto.
  - intros Nd. destruct (H14 Nd) as [J1 J2 J3 J4 J5 J6 J7 J8 J9 J10]. hop_fields.
    assert (J2' : NoDup (map fst (remove_nth j T)) /\ ~ In suf (map fst (remove_nth j T))).
    { rewrite ER. rewrite ET in J2. rewrite map_app in *. cbn in J2. split; [eapply NoDup_remove_1; eauto|eapply NoDup_remove_2; eauto]. }
    destruct J2' as (J2a & J2b).
    assert (Is : In (suf, b) (G src c)) by (apply H7; eapply nth_error_In; eauto).
    split; hop_fields; auto.
    + intros Lf s. destruct (J9 Lf s) as (pr & pp & X1 & X2 & X3 & X4). specialize (X4 eq_refl). rewrite filter_snoc. cbn [about].
      destruct (str_eqb_spec s suf) as [->|Ns].
      * assert (pp = Live).
        { assert (In suf (map fst T)) by (apply nth_error_In in Hj; apply (in_map fst) in Hj; exact Hj).
          apply (in_map fst) in Is. cbn in Is. destruct pp; auto; cbn in X4; tauto. }
        subst pp. exists pr, Done. split; [exact X1|]. split; [inversion X2; subst; cbn; constructor|].
        split; [exists b; auto|]. intros _. cbn. split; [apply (in_map fst) in Is; exact Is|auto].
      * exists pr, pp. rewrite app_nil_r. split; [exact X1|]. split; [exact X2|]. split; [exact X3|]. intros _.
        assert (Q : In s (map fst (remove_nth j T)) <-> In s (map fst T)).
        { rewrite ER, ET, !map_app, !in_app_iff. cbn. intuition congruence. }
        destruct pp; cbn in *; rewrite ?Q; auto.
    + intros _ s x I. destruct (J10 eq_refl _ _ I) as [I2|]; auto. rewrite ET in I2. rewrite ER.
      apply in_app_or in I2 as [I2|[[= <- <-]|I2]]; auto; left; apply in_or_app; auto.
Qed.

(** It polls without result. *)
Lemma turn_quiet C os P P' G G' p o o' ops ev :
  hop_ok C os P G p -> nth_error os (hp_src p) = Some o -> node C (P (hp_src p)) o -> hp_src p <> hp_dst p ->
  an_over (hp_ann p) = false -> orun o ops = (o', ev) -> Forall calm ops ->
  flat_map pub_of ev = [] -> got (hp_cons p) ev = [] ->
  (forall G, tracks C (P (hp_src p)) G o (hp_cons p) (hp_pre p) false -> tracks C (P (hp_src p)) G o' (hp_cons p) (hp_pre p) false) ->
  (forall n, P' n = P n) -> (forall n d, n <> hp_src p \/ d = hp_cons p -> G' n d = G n d) ->
  hop_ok C (set_nth (hp_src p) o' os) P' G' p.
Proof.
  intros [(a & A & K) (r & Rr & K2) H3 H4 H5 H6 H7 H8 H9 H10 H11 H12 H13 H14] O N Ne Ov R F EP EG T HP HG.
  assert (a = o) by congruence. subst a.
  assert (L : hp_src p < length os) by (apply nth_error_Some; congruence).
  assert (E : G' (hp_src p) (hp_cons p) = G (hp_src p) (hp_cons p)) by (apply HG; auto).
  split; rewrite ?HP, ?E; auto.
  - exists o'. split; [apply nth_error_set_eq; auto|]. intros _. apply T. auto.
  - exists r. rewrite nth_error_set_ne by auto. auto.
Qed.

(** It stops. *)
Lemma turn_stop C os P P' G G' src c pre dst a a' wire m lf runs o o' :
  hop_ok C os P G (Hop src c pre dst a wire m lf runs false) ->
  nth_error os src = Some o -> src <> dst -> an_over a = false ->
  an_queue a' = [] -> an_gone a' = false -> an_closed a' = [] -> an_tasks a' = [] -> an_over a' = true ->
  (forall n, P' n = P n) -> (forall n d, G' n d = G n d) ->
  hop_ok C (set_nth src o' os) P' G' (Hop src c pre dst a' wire m lf runs false).
Proof.
  intros [(b & A & K) (r & Rr & K2) H3 H4 H5 H6 H7 H8 H9 H10 H11 H12 H13 H14] O Ne Ov E1 E2 E3 E4 E5 HP HG. hop_fields.
  assert (L : src < length os) by (apply nth_error_Some; congruence).
  split; hop_fields; rewrite ?HP, ?HG; auto.
  - exists o'. split; [apply nth_error_set_eq; auto|]. congruence.
  - exists r. rewrite nth_error_set_ne by auto. auto.
  - rewrite E4. intros x [].
  - intros Nd. destruct (H14 Nd) as [J1 J2 J3 J4 J5 J6 J7 J8 J9 J10]. hop_fields.
    split; hop_fields; auto.
    + rewrite E4. constructor.
    + intros Lf s. destruct (J9 Lf s) as (pr & pp & X1 & X2 & X3 & X4). exists pr, pp. repeat split; auto. congruence.
    + congruence.
Qed.
