(** Proofs about the loop that lets clients in. *)
From Coq Require Import List Bool Arith Lia.
From Verif.Model Require Import Base Accept.
From Verif.Spec Require Import AcceptSpec.
Import ListNotations.
Open Scope nat_scope.

Section AcceptP.
Context {url token : Type}.
Variable validate : url -> res (option token).
Notation log := (list (acop url * acout token)).
Notation run := (ac_run validate).
Notation step := (ac_step validate).

Lemma run_app : forall ops1 ops2 s, run s (ops1 ++ ops2) =
  let (s1, tr1) := run s ops1 in let (s2, tr2) := run s1 ops2 in (s2, tr1 ++ tr2).
Proof.
  induction ops1 as [|o ops1 IH]; intros ops2 s; cbn [app ac_run].
  - destruct (run s ops2); reflexivity.
  - destruct (step s o) as [s1 x]. rewrite IH. destruct (run s1 ops1) as [s2 tr1]. destruct (run s2 ops2); reflexivity.
Qed.

Lemma run_split : forall ops s s' a o x c, run s ops = (s', a ++ (o, x) :: c) ->
  exists ops1 ops2 s1, ops = ops1 ++ o :: ops2 /\ run s ops1 = (s1, a) /\ snd (step s1 o) = x.
Proof.
  induction ops as [|o' ops IH]; intros s s' a o x c H; cbn [ac_run] in H.
  - destruct a; discriminate.
  - destruct (step s o') as [s1 x'] eqn:E. destruct (run s1 ops) as [s2 tr] eqn:E2.
    destruct a as [|e a]; cbn [app] in H.
    + injection H as -> -> -> ->. exists [], ops, s. split; [reflexivity|]. split; [reflexivity|]. rewrite E. reflexivity.
    + injection H as -> <- ->. destruct (IH _ _ _ _ _ _ E2) as (p & q & s3 & -> & R & X).
      exists (o' :: p), q, s3. split; [reflexivity|]. split; [|exact X]. cbn [ac_run]. rewrite E, R. reflexivity.
Qed.

Lemma sh_set_len : forall (l : list (shake url)) k x, length (sh_set l k x) = length l.
Proof. induction l; intros [|k] x; cbn; auto. Qed.
Lemma sh_set_same : forall (l : list (shake url)) k x, k < length l -> nth_error (sh_set l k x) k = Some x.
Proof. induction l; intros [|k] x H; cbn in *; try lia; auto. apply IHl. lia. Qed.
Lemma sh_set_other : forall (l : list (shake url)) k x i, i <> k -> nth_error (sh_set l k x) i = nth_error l i.
Proof. induction l; intros [|k] x [|i] H; cbn; auto; try congruence. Qed.
Lemma nth_lt : forall (l : list (shake url)) k x, nth_error l k = Some x -> k < length l.
Proof. intros l k x H. apply nth_error_Some. congruence. Qed.

Record inv (tr : log) (s : acc url) : Prop := Inv {
  i_arr : arrived tr = ac_arrived s;
  i_beg : begun tr = seq 0 (length (ac_shakes s));
  i_le : length (ac_shakes s) <= ac_arrived s;
  i_done : forall k r, nth_error (ac_shakes s) k = Some (ShDone r) -> shaken tr k r;
  i_shk : forall k r, shaken tr k r -> nth_error (ac_shakes s) k = Some (ShDone r) \/ nth_error (ac_shakes s) k = Some ShTaken;
  i_uni : forall k r r', shaken tr k r -> shaken tr k r' -> r = r';
  i_tak : forall k, nth_error (ac_shakes s) k = Some ShTaken <-> In k (dealt tr);
  i_nd : NoDup (dealt tr);
  i_ids : ids tr = seq 0 (ac_id s);
  i_lost : ac_lost s = true <-> In (AcLose, AcDone) tr;
  i_hear : ac_sig s = SgOn true -> In (AcSignal, AcHeard) tr;
  i_over : ac_over s = true <-> ended tr;
  i_stop : forall o, In (o, AcStopped) tr -> told_to_end tr;
  i_sig : ac_over s = false -> match last_round tr with
          | None => ac_sig s = SgNone | Some AcPending => exists f, ac_sig s = SgOn f | Some _ => ac_sig s = SgDeaf end }.

Lemma in_snoc : forall (A : Type) (x y : A) l, In x (l ++ [y]) <-> In x l \/ x = y.
Proof. intros. rewrite in_app_iff. cbn. intuition congruence. Qed.
Lemma shaken_snoc : forall (tr : log) o x k r, shaken (tr ++ [(o, x)]) k r <-> shaken tr k r \/ (o = AcShake k r /\ x = AcDone).
Proof. intros. unfold shaken. rewrite in_snoc. intuition congruence. Qed.
Lemma dealt_snoc : forall (tr : log) e, dealt (tr ++ [e]) = dealt tr ++ dealt1 e.
Proof. intros. unfold dealt. rewrite flat_map_app. cbn. now rewrite app_nil_r. Qed.
Lemma begun_snoc : forall (tr : log) e, begun (tr ++ [e]) = begun tr ++ begun1 e.
Proof. intros. unfold begun. rewrite flat_map_app. cbn. now rewrite app_nil_r. Qed.
Lemma ids_snoc : forall (tr : log) e, ids (tr ++ [e]) = ids tr ++ ids1 e.
Proof. intros. unfold ids. rewrite flat_map_app. cbn. now rewrite app_nil_r. Qed.
Lemma arrived_snoc : forall (tr : log) e, arrived (tr ++ [e]) = arrived tr + length (arrived1 e).
Proof. intros. unfold arrived. rewrite flat_map_app, app_length. cbn. now rewrite app_nil_r. Qed.
Lemma last_snoc : forall (tr : log) e, last_round (tr ++ [e]) = match round1 e with Some x => Some x | None => last_round tr end.
Proof. intros. unfold last_round. rewrite fold_left_app. reflexivity. Qed.
Lemma ended_snoc : forall (tr : log) o x, ended (tr ++ [(o, x)]) <-> ended tr \/ ending x.
Proof.
  intros. unfold ended. split.
  - intros (p & y & I & E). apply in_snoc in I. destruct I as [I|I]; [left; eauto|right]. now injection I as -> ->.
  - intros [(p & y & I & E)|E]; [exists p, y|exists o, x]; rewrite in_snoc; auto.
Qed.
Lemma told_snoc : forall (tr : log) e, told_to_end tr -> told_to_end (tr ++ [e]).
Proof. intros tr e. unfold told_to_end. rewrite !in_snoc. tauto. Qed.

(** An event that is nothing to anybody. *)
Lemma inv_skip : forall tr s o x, inv tr s -> arrived1 (o, x) = [] -> begun1 (o, x) = [] -> ids1 (o, x) = [] -> dealt1 (o, x) = [] ->
  x <> AcDone -> x <> AcStopped -> ~ ending x -> round1 (o, x) = None -> inv (tr ++ [(o, x)]) s.
Proof.
  intros tr s o x I A B C D N1 N2 N3 R. destruct I. constructor;
    rewrite ?arrived_snoc, ?begun_snoc, ?ids_snoc, ?dealt_snoc, ?last_snoc, ?A, ?B, ?C, ?D, ?R, ?app_nil_r; auto; cbn [length]; try lia.
  - intros k r H. apply shaken_snoc. auto.
  - intros k r H. apply shaken_snoc in H. destruct H as [H|[_ H]]; [auto|congruence].
  - intros k r r' H H'. apply shaken_snoc in H, H'. destruct H as [H|[_ H]]; [|congruence]. destruct H' as [H'|[_ H']]; [|congruence]. eauto.
  - rewrite in_snoc. split; [intros H; left; tauto|]. intros [H|H]; [tauto|congruence].
  - intros H. apply in_snoc. auto.
  - rewrite ended_snoc. tauto.
  - intros p H. apply in_snoc in H. destruct H as [H|H]; [apply told_snoc; eauto|congruence].
Qed.

(** The fields of a step that leaves the clients alone. *)
Lemma inv_init : inv [] ac_init.
Proof.
  constructor; cbn; auto; try discriminate.
  - intros k r H. destruct k; discriminate.
  - intros k r [].
  - intros k r r' [].
  - intros k. split; [destruct k; discriminate|intros []].
  - constructor.
  - split; [discriminate|intros []].
  - split; [discriminate|]. intros (o & x & [] & _).
  - intros o [].
Qed.

Ltac snocs := rewrite ?arrived_snoc, ?begun_snoc, ?ids_snoc, ?dealt_snoc, ?last_snoc; cbn [arrived1 begun1 ids1 dealt1 round1 fst snd length]; rewrite ?app_nil_r, ?Nat.add_0_r.

(** Taking the result of client [k]. *)
Lemma inv_take : forall tr s b k x id over, inv tr s -> ac_over s = false -> nth_error (ac_shakes s) k = Some (ShDone b) ->
  dealt1 (@AcPoll url (BShake k), x) = [k] -> ids tr ++ ids1 (@AcPoll url (BShake k), x) = seq 0 id -> (over = true <-> ending x) ->
  inv (tr ++ [(AcPoll (BShake k), x)]) (Acc (ac_arrived s) (sh_set (ac_shakes s) k ShTaken) SgDeaf id (ac_lost s) over).
Proof.
  intros tr s b k x id over I O N D J E. destruct I.
  assert (L := nth_lt _ _ _ N).
  assert (X : x <> AcDone /\ x <> AcStopped /\ x <> AcPending /\ x <> AcNothing /\ begun1 (@AcPoll url (BShake k), x) = [] /\ @arrived1 url token (AcPoll (BShake k), x) = []).
  { destruct x; cbn in D; try discriminate; repeat split; discriminate. }
  destruct X as (X1 & X2 & X3 & X4 & X5 & X6).
  constructor; cbn [ac_arrived ac_shakes ac_sig ac_id ac_lost ac_over]; snocs; rewrite ?sh_set_len, ?D, ?X5, ?X6, ?app_nil_r; cbn [length]; try lia; auto.
  - intros i r H. destruct (Nat.eq_dec i k) as [->|Q].
    + rewrite sh_set_same in H by exact L. discriminate.
    + rewrite sh_set_other in H by exact Q. apply shaken_snoc. auto.
  - intros i r H. apply shaken_snoc in H. destruct H as [H|[H _]]; [|discriminate].
    destruct (Nat.eq_dec i k) as [->|Q]; [right; now apply sh_set_same|]. rewrite sh_set_other by exact Q. auto.
  - intros i r r' H H'. apply shaken_snoc in H, H'. destruct H as [H|[H _]]; [|discriminate]. destruct H' as [H'|[H' _]]; [|discriminate]. eauto.
  - intros i. rewrite in_snoc. destruct (Nat.eq_dec i k) as [->|Q].
    + rewrite sh_set_same by exact L. tauto.
    + rewrite sh_set_other by exact Q. rewrite i_tak0. tauto.
  - apply NoDup_rev in i_nd0. rewrite <- (rev_involutive (dealt tr ++ [k])). apply NoDup_rev. rewrite rev_app_distr. cbn. constructor; [|exact i_nd0].
    rewrite <- in_rev, <- i_tak0. congruence.
  - rewrite in_snoc. split; [intros H; left; tauto|intros [H|H]; [tauto|discriminate]].
  - intros H. discriminate.
  - rewrite ended_snoc, <- i_over0, O. intuition discriminate.
  - intros o H. apply in_snoc in H. destruct H as [H|H]; [apply told_snoc; eauto|congruence].
  - intros _. destruct x; cbn in D; try discriminate; reflexivity.
Qed.

(** Nothing happens to any client; [x] is not a result for one. *)
Lemma inv_quiet : forall tr s o x arr sg lost over, inv tr s -> ac_over s = false ->
  (forall k r, o <> AcShake k r) -> begun1 (o, x) = [] -> ids1 (o, x) = [] -> dealt1 (o, x) = [] ->
  arr = ac_arrived s + length (arrived1 (o, x)) ->
  (lost = true <-> ac_lost s = true \/ (o, x) = (AcLose, AcDone)) ->
  (sg = SgOn true -> ac_sig s = SgOn true \/ (o, x) = (AcSignal, AcHeard)) ->
  (over = true <-> ending x) ->
  (x = AcStopped -> told_to_end tr) ->
  (over = false -> match (match round1 (o, x) with Some y => Some y | None => last_round tr end) with
          | None => sg = SgNone | Some AcPending => exists f, sg = SgOn f | Some _ => sg = SgDeaf end) ->
  inv (tr ++ [(o, x)]) (Acc arr (ac_shakes s) sg (ac_id s) lost over).
Proof.
  intros tr s o x arr sg lost over I O N B C D A L G E T R. destruct I.
  constructor; cbn [ac_arrived ac_shakes ac_sig ac_id ac_lost ac_over];
    rewrite ?arrived_snoc, ?begun_snoc, ?ids_snoc, ?dealt_snoc, ?last_snoc, ?B, ?C, ?D, ?app_nil_r; try lia; auto.
  - intros k r H. apply shaken_snoc. auto.
  - intros k r H. apply shaken_snoc in H. destruct H as [H|[H _]]; [auto|]. exfalso. exact (N _ _ H).
  - intros k r r' H H'. apply shaken_snoc in H, H'. destruct H as [H|[H _]]; [|exfalso; exact (N _ _ H)].
    destruct H' as [H'|[H' _]]; [|exfalso; exact (N _ _ H')]. eauto.
  - rewrite in_snoc, L, i_lost0. intuition congruence.
  - intros H. apply in_snoc. destruct (G H) as [H'|H']; [left; auto|right; symmetry; exact H'].
  - rewrite ended_snoc, <- i_over0, O, E. intuition discriminate.
  - intros p H. apply in_snoc in H. destruct H as [H|H]; [apply told_snoc; eauto|]. injection H as <- <-. apply told_snoc. auto.
Qed.

Lemma inv_step : forall tr s o s' x, inv tr s -> step s o = (s', x) -> inv (tr ++ [(o, x)]) s'.
Proof.
  intros tr s o s' x I H. unfold ac_step in H. destruct (ac_over s) eqn:O.
  - injection H as <- <-. destruct o; apply inv_skip; auto; cbn; auto; try discriminate; try tauto.
  - assert (I' := I). destruct o as [|k r| | |b].
    + injection H as <- <-. apply inv_quiet; auto; cbn; try lia; try discriminate; try (now intuition (auto; discriminate)).
      intros _. apply (i_sig _ _ I O).
    + destruct (nth_error (ac_shakes s) k) as [[| |]|] eqn:N; injection H as <- <-;
        try (apply inv_skip; auto; cbn; auto; try discriminate; tauto).
      assert (L := nth_lt _ _ _ N). destruct I'.
      constructor; cbn [ac_arrived ac_shakes ac_sig ac_id ac_lost ac_over]; snocs; rewrite ?sh_set_len; auto.
      * intros i r' H. apply shaken_snoc. destruct (Nat.eq_dec i k) as [->|Q].
        -- rewrite sh_set_same in H by exact L. injection H as ->. auto.
        -- rewrite sh_set_other in H by exact Q. auto.
      * intros i r' H. apply shaken_snoc in H. destruct H as [H|[H _]].
        -- destruct (Nat.eq_dec i k) as [->|Q]; [destruct (i_shk0 _ _ H); congruence|]. rewrite sh_set_other by exact Q. auto.
        -- injection H as <- <-. left. now apply sh_set_same.
      * assert (U : forall r', ~ shaken tr k r') by (intros r' H; destruct (i_shk0 _ _ H); congruence).
        intros i r1 r2 H H'. apply shaken_snoc in H, H'. destruct H as [H|[H _]], H' as [H'|[H' _]].
        -- eauto.
        -- injection H' as -> ->. exfalso. exact (U _ H).
        -- injection H as -> ->. exfalso. exact (U _ H').
        -- congruence.
      * intros i. destruct (Nat.eq_dec i k) as [->|Q].
        -- rewrite sh_set_same by exact L. split; [discriminate|]. intros H. apply i_tak0 in H. congruence.
        -- rewrite sh_set_other by exact Q. apply i_tak0.
      * rewrite in_snoc, i_lost0. intuition discriminate.
      * intros H. apply in_snoc. auto.
      * rewrite ended_snoc. rewrite <- i_over0, O. cbn. intuition discriminate.
      * intros p H. apply in_snoc in H. destruct H as [H|H]; [apply told_snoc; eauto|discriminate].
      * intros _. exact (i_sig0 O).
    + injection H as <- <-. apply inv_quiet; auto; cbn; try lia; try discriminate; try (now intuition (auto; discriminate)).
      intros _. apply (i_sig _ _ I O).
    + assert (G := i_sig _ _ I O). destruct (ac_sig s) as [| |f] eqn:S; injection H as <- <-.
      * unfold ac_halt. apply inv_quiet; auto; cbn; try lia; try discriminate; try (now intuition (auto; discriminate)).
      * apply inv_skip; auto; cbn; auto; try discriminate; tauto.
      * apply inv_quiet; auto; cbn; try lia; try discriminate; try (now intuition (auto; discriminate)).
        intros _. destruct (last_round tr) as [[]|]; try discriminate G; eauto.
    + unfold ac_poll in H. assert (G := i_sig _ _ I O).
      destruct (negb (rd_endpoint s) && negb (rd_shake s) && negb (rd_signal s)) eqn:P.
      { injection H as <- <-. unfold ac_wait. apply inv_quiet; auto; cbn; try lia; try discriminate; try (now intuition (auto; discriminate)).
        - destruct (ac_sig s) as [| |[]]; try discriminate; auto.
        - intros _. destruct (ac_sig s); eauto. }
      destruct b as [|k|].
      * destruct (ac_lost s) eqn:Z; [|destruct (length (ac_shakes s) <? ac_arrived s) eqn:Y]; injection H as <- <-.
        -- unfold ac_halt. rewrite Z. apply inv_quiet; auto; cbn; try lia; try discriminate; try (now intuition (auto; discriminate)).
           intros _. right. right. now apply (i_lost _ _ I).
        -- unfold ac_round. apply Nat.ltb_lt in Y. destruct I'.
           constructor; cbn [ac_arrived ac_shakes ac_sig ac_id ac_lost ac_over]; snocs; rewrite ?app_length; cbn [length]; auto; try lia.
           ++ rewrite i_beg0, Nat.add_1_r, seq_S. reflexivity.
           ++ intros k r H. apply shaken_snoc. left. apply i_done0. destruct (Nat.lt_ge_cases k (length (ac_shakes s))) as [Q|Q].
              ** now rewrite nth_error_app1 in H by exact Q.
              ** rewrite nth_error_app2 in H by exact Q. destruct (k - length (ac_shakes s)) as [|[|]]; cbn in H; discriminate.
           ++ intros k r H. apply shaken_snoc in H. destruct H as [H|[H _]]; [|discriminate].
              destruct (i_shk0 _ _ H) as [H1|H1]; rewrite nth_error_app1 by (eapply nth_lt; exact H1); auto.
           ++ intros k r r' H H'. apply shaken_snoc in H, H'. destruct H as [H|[H _]]; [|discriminate]. destruct H' as [H'|[H' _]]; [|discriminate]. eauto.
           ++ intros k. rewrite <- i_tak0. destruct (Nat.lt_ge_cases k (length (ac_shakes s))) as [Q|Q].
              ** now rewrite nth_error_app1 by exact Q.
              ** rewrite nth_error_app2 by exact Q. split; intros H; [destruct (k - length (ac_shakes s)) as [|[|]]; cbn in H; discriminate|].
                 apply nth_lt in H. lia.
           ++ rewrite in_snoc, <- i_lost0. intuition discriminate.
           ++ discriminate.
           ++ rewrite ended_snoc, <- i_over0, O. cbn. intuition discriminate.
           ++ intros p H. apply in_snoc in H. destruct H as [H|H]; [apply told_snoc; eauto|discriminate].
        -- apply inv_skip; auto; cbn; auto; try discriminate; tauto.
      * destruct (nth_error (ac_shakes s) k) as [[|[u|]|]|] eqn:N; try (injection H as <- <-; apply inv_skip; auto; cbn; auto; try discriminate; tauto).
        -- unfold ac_admit in H. destruct (validate u) as [[t|]|] eqn:V; injection H as <- <-; unfold ac_halt, ac_round; cbn [ac_arrived ac_shakes ac_sig ac_id ac_lost ac_over];
             eapply inv_take; eauto; cbn; rewrite ?app_nil_r, ?(i_ids _ _ I); auto; try tauto; try (now intuition discriminate).
           symmetry. apply (seq_S (ac_id s) 0).
        -- injection H as <- <-. unfold ac_round. eapply inv_take; eauto; cbn; rewrite ?app_nil_r, ?(i_ids _ _ I); auto. intuition discriminate.
      * destruct (rd_signal s) eqn:R; injection H as <- <-.
        -- unfold ac_halt. apply inv_quiet; auto; cbn; try lia; try discriminate; try (now intuition (auto; discriminate)).
           intros _. left. apply (i_hear _ _ I). unfold rd_signal in R. destruct (ac_sig s) as [| |[]]; congruence.
        -- apply inv_skip; auto; cbn; auto; try discriminate; tauto.
Qed.

Lemma inv_run : forall ops tr0 s s' tr, inv tr0 s -> run s ops = (s', tr) -> inv (tr0 ++ tr) s'.
Proof.
  induction ops as [|o ops IH]; intros tr0 s s' tr I H; cbn [ac_run] in H.
  - injection H as <- <-. now rewrite app_nil_r.
  - destruct (step s o) as [s1 x] eqn:E. destruct (run s1 ops) as [s2 tr1] eqn:E2. injection H as <- <-.
    change ((o, x) :: tr1) with ([(o, x)] ++ tr1). rewrite app_assoc. eapply IH; [|exact E2]. eapply inv_step; eauto.
Qed.
Lemma inv_all : forall ops s tr, run ac_init ops = (s, tr) -> inv tr s.
Proof. intros ops s tr H. apply (inv_run _ [] _ _ _ inv_init H). Qed.

Lemma ids_len : forall tr s, inv tr s -> length (ids tr) = ac_id s.
Proof. intros tr s I. rewrite (i_ids _ _ I). apply seq_length. Qed.

Lemma not_over : forall tr s, inv tr s -> ~ ended tr -> ac_over s = false.
Proof. intros tr s I H. destruct (ac_over s) eqn:O; [|reflexivity]. exfalso. apply H, (i_over _ _ I). exact O. Qed.

Lemma own : forall ops s a o x c k, run ac_init ops = (s, a ++ (o, x) :: c) -> dealt1 (o, x) = [k] ->
  exists r, shaken a k r /\ x = treatment validate k (length (ids a)) r.
Proof.
  intros ops s a o x c k H D. destruct (run_split _ _ _ _ _ _ _ H) as (p & q & s1 & _ & R & X).
  assert (I := inv_all _ _ _ R). rewrite (ids_len _ _ I). unfold ac_step in X.
  destruct (ac_over s1); [cbn in X; subst x; destruct o; discriminate|].
  destruct o as [|i r| | |b]; cbn [snd] in X.
  - subst x. discriminate.
  - destruct (nth_error (ac_shakes s1) i) as [[| |]|]; subst x; discriminate.
  - subst x. discriminate.
  - destruct (ac_sig s1); subst x; discriminate.
  - unfold ac_poll in X. destruct (negb (rd_endpoint s1) && negb (rd_shake s1) && negb (rd_signal s1)); [cbn in X; subst x; discriminate|].
    destruct b as [|i|].
    + destruct (ac_lost s1); [subst x; discriminate|]. destruct (length (ac_shakes s1) <? ac_arrived s1); subst x; discriminate.
    + destruct (nth_error (ac_shakes s1) i) as [[|[u|]|]|] eqn:N; try (cbn in X; subst x; discriminate).
      * exists (Some u). assert (i = k). { unfold ac_admit in X. destruct (validate u) as [[t|]|]; cbn in X; subst x; cbn in D; congruence. }
        subst i. split; [exact (i_done _ _ I _ _ N)|]. unfold ac_admit in X. unfold treatment. destruct (validate u) as [[t|]|]; cbn in X; congruence.
      * exists None. cbn in X. subst x. cbn in D. injection D as ->. split; [exact (i_done _ _ I _ _ N)|reflexivity].
    + destruct (rd_signal s1); subst x; discriminate.
Qed.

Lemma once : forall ops s tr, run ac_init ops = (s, tr) ->
  NoDup (dealt tr) /\ (forall k r r', shaken tr k r -> shaken tr k r' -> r = r') /\
  begun tr = seq 0 (length (begun tr)) /\ ids tr = seq 0 (length (ids tr)).
Proof.
  intros ops s tr H. assert (I := inv_all _ _ _ H). split; [apply (i_nd _ _ I)|]. split; [apply (i_uni _ _ I)|]. split.
  - rewrite (i_beg _ _ I), seq_length. reflexivity.
  - rewrite (i_ids _ _ I), seq_length. reflexivity.
Qed.

Lemma ready_some : forall (l : list (shake url)) k r, nth_error l k = Some (ShDone r) -> existsb sh_done l = true.
Proof. intros l k r H. apply existsb_exists. exists (ShDone r). split; [eapply nth_error_In; eauto|reflexivity]. Qed.

Lemma ready : forall ops s tr k r, run ac_init ops = (s, tr) -> ~ ended tr -> shaken tr k r -> ~ In k (dealt tr) ->
  snd (step s (AcPoll (BShake k))) = treatment validate k (length (ids tr)) r.
Proof.
  intros ops s tr k r H E S D. assert (I := inv_all _ _ _ H). rewrite (ids_len _ _ I).
  unfold ac_step. rewrite (not_over _ _ I E). unfold ac_poll.
  destruct (i_shk _ _ I _ _ S) as [N|N]; [|exfalso; apply D, (i_tak _ _ I), N].
  unfold rd_shake. rewrite (ready_some _ _ _ N), andb_false_r, andb_false_l, N.
  destruct r as [u|]; [|reflexivity]. unfold ac_admit, treatment. destruct (validate u) as [[t|]|]; reflexivity.
Qed.

(** The next client in the queue is taken up, whatever the others do. *)
Lemma ready_new : forall ops s tr, run ac_init ops = (s, tr) -> ~ ended tr -> ~ In (AcLose, AcDone) tr -> length (begun tr) < arrived tr ->
  snd (step s (AcPoll BEndpoint)) = AcBegun (length (begun tr)).
Proof.
  intros ops s tr H E L A. assert (I := inv_all _ _ _ H). rewrite (i_beg _ _ I), seq_length in *. rewrite (i_arr _ _ I) in A.
  unfold ac_step. rewrite (not_over _ _ I E). unfold ac_poll, rd_endpoint.
  assert (Z : ac_lost s = false). { destruct (ac_lost s) eqn:Z; [|reflexivity]. exfalso. apply L, (i_lost _ _ I), Z. }
  apply Nat.ltb_lt in A. rewrite Z, A. reflexivity.
Qed.

Lemma pending_state : forall s b, ac_over s = false -> snd (step s (AcPoll b)) = AcPending ->
  rd_endpoint s = false /\ rd_shake s = false /\ rd_signal s = false.
Proof.
  intros s b O X. unfold ac_step in X. rewrite O in X. unfold ac_poll in X.
  destruct (rd_endpoint s), (rd_shake s), (rd_signal s) eqn:RS; cbn [negb andb] in X; auto; exfalso;
  (destruct b as [|k|];
   [destruct (ac_lost s); [discriminate|]; destruct (length (ac_shakes s) <? ac_arrived s); discriminate
   |destruct (nth_error (ac_shakes s) k) as [[|[u|]|]|]; try discriminate; unfold ac_admit in X; destruct (validate u) as [[t|]|]; discriminate
   |discriminate]).
Qed.

Lemma at_rest : forall ops s tr b, run ac_init ops = (s, tr) -> snd (step s (AcPoll b)) = AcPending ->
  begun tr = seq 0 (arrived tr) /\ (forall k r, shaken tr k r -> In k (dealt tr)).
Proof.
  intros ops s tr b R X. assert (I := inv_all _ _ _ R).
  assert (O : ac_over s = false). { unfold ac_step in X. destruct (ac_over s); [discriminate|reflexivity]. }
  destruct (pending_state _ _ O X) as (E1 & E2 & _). split.
  - rewrite (i_beg _ _ I), (i_arr _ _ I). f_equal. unfold rd_endpoint in E1. apply orb_false_iff in E1. destruct E1 as [_ E1].
    apply Nat.ltb_ge in E1. assert (L := i_le _ _ I). lia.
  - intros k r S. apply (i_tak _ _ I). destruct (i_shk _ _ I _ _ S) as [N|N]; [|exact N].
    exfalso. unfold rd_shake in E2. rewrite (ready_some _ _ _ N) in E2. discriminate.
Qed.

Lemma why_ended : forall ops s tr, run ac_init ops = (s, tr) -> ended tr ->
  told_to_end tr \/ exists k u, In k (dealt tr) /\ shaken tr k (Some u) /\ validate u = Panic.
Proof.
  intros ops s tr H (o & x & J & E). assert (I := inv_all _ _ _ H). destruct x as [| | | | | | | | |k| |]; try contradiction.
  - left. right. left. destruct (in_split _ _ J) as (a & c & ->). destruct (run_split _ _ _ _ _ _ _ H) as (p & q & s1 & _ & R & X).
    assert (o = AcSignal); [|subst o; exact J]. unfold ac_step in X. destruct (ac_over s1); [discriminate|].
    destruct o as [|i r| | |b]; try discriminate; [destruct (nth_error (ac_shakes s1) i) as [[| |]|]; discriminate|reflexivity|].
    exfalso. cbn [snd] in X. unfold ac_poll in X. destruct (negb (rd_endpoint s1) && negb (rd_shake s1) && negb (rd_signal s1)); [discriminate|].
    destruct b as [|i|].
    + destruct (ac_lost s1); [discriminate|]. destruct (length (ac_shakes s1) <? ac_arrived s1); discriminate.
    + destruct (nth_error (ac_shakes s1) i) as [[|[u|]|]|]; try discriminate. unfold ac_admit in X. destruct (validate u) as [[t|]|]; discriminate.
    + destruct (rd_signal s1); discriminate.
  - right. destruct (in_split _ _ J) as (a & c & ->). destruct (own _ _ _ _ _ _ k H eq_refl) as (r & S & X).
    destruct r as [u|]; [|discriminate]. exists k, u. split; [|split].
    + unfold dealt. rewrite flat_map_app. apply in_app_iff. right. cbn. auto.
    + unfold shaken. apply in_app_iff. left. exact S.
    + unfold treatment in X. destruct (validate u) as [[t|]|]; [discriminate|discriminate|reflexivity].
  - left. exact (i_stop _ _ I _ J).
Qed.

Lemma heard_exact : forall ops s tr, run ac_init ops = (s, tr) -> ~ ended tr ->
  snd (step s AcSignal) = match last_round tr with None => AcKilled | Some AcPending => AcHeard | Some _ => AcMissed end.
Proof.
  intros ops s tr H E. assert (I := inv_all _ _ _ H). assert (O := not_over _ _ I E). assert (G := i_sig _ _ I O).
  unfold ac_step. rewrite O. destruct (last_round tr) as [[]|]; try (rewrite G; reflexivity). destruct G as [f ->]. reflexivity.
Qed.

(** A signal that comes while the loop waits and has nothing else to do ends it. *)
Lemma signal_ends : forall ops s tr b0 s1 s2 x, run ac_init ops = (s, tr) -> step s (AcPoll b0) = (s1, AcPending) -> step s1 AcSignal = (s2, x) ->
  x = AcHeard /\ snd (step s2 (AcPoll BSignal)) = AcStopped /\
  forall b, snd (step s2 (AcPoll b)) = AcStopped \/ snd (step s2 (AcPoll b)) = AcNothing.
Proof.
  intros ops s tr b0 s1 s2 x H X Y. assert (I := inv_all _ _ _ H).
  assert (O : ac_over s = false). { unfold ac_step in X. destruct (ac_over s); [discriminate|reflexivity]. }
  assert (X' : snd (step s (AcPoll b0)) = AcPending) by (rewrite X; reflexivity).
  destruct (pending_state _ _ O X') as (E1 & E2 & E3).
  unfold ac_step in X. rewrite O in X. unfold ac_poll in X. rewrite E1, E2, E3 in X. cbn [negb andb] in X. injection X as <-.
  unfold ac_step in Y. cbn [ac_over ac_wait ac_sig] in Y.
  assert (W : exists f, match ac_sig s with SgOn f => SgOn f | _ => SgOn false end = SgOn f) by (destruct (ac_sig s); eauto).
  destruct W as [f W]. rewrite W in Y. injection Y as <- <-. split; [reflexivity|].
  unfold ac_step. cbn [ac_over]. unfold ac_poll. unfold rd_signal, rd_endpoint, rd_shake. cbn [ac_wait ac_sig ac_shakes ac_arrived ac_lost].
  rewrite andb_false_r. split; [reflexivity|].
  apply orb_false_iff in E1. destruct E1 as [-> ->]. intros [|k|]; cbn [snd]; auto.
  destruct (nth_error (ac_shakes s) k) as [[|r|]|] eqn:N; auto. exfalso. unfold rd_shake in E2. rewrite (ready_some _ _ _ N) in E2. discriminate.
Qed.

(** Otherwise it may be lost: once another branch was taken, the signal has no effect. *)
Lemma heard_then : forall ops s tr s1 b s2 x, run ac_init ops = (s, tr) -> step s AcSignal = (s1, AcHeard) -> step s1 (AcPoll b) = (s2, x) ->
  x = AcNothing \/ x = AcStopped \/ (exists k, x = AcBegun k \/ In k (dealt1 (@AcPoll url b, x))).
Proof.
  intros ops s tr s1 b s2 x H X Y. assert (I := inv_all _ _ _ H).
  unfold ac_step in X. destruct (ac_over s) eqn:O; [discriminate|]. destruct (ac_sig s) as [| |f] eqn:S; try discriminate. injection X as <-.
  unfold ac_step in Y. cbn [ac_over] in Y. unfold ac_poll in Y. unfold rd_signal in Y. cbn [ac_sig] in Y. rewrite andb_false_r in Y.
  destruct b as [|k|]; cbn [ac_lost ac_shakes ac_arrived] in Y.
  - destruct (ac_lost s); [injection Y as _ <-; auto|]. destruct (length (ac_shakes s) <? ac_arrived s); injection Y as _ <-; eauto.
  - destruct (nth_error (ac_shakes s) k) as [[|[u|]|]|]; try (injection Y as _ <-; auto).
    + unfold ac_admit in Y. right. right. exists k. right. destruct (validate u) as [[t|]|]; injection Y as _ <-; cbn; auto.
    + right. right. exists k. right. cbn. auto.
  - injection Y as _ <-. auto.
Qed.
End AcceptP.
