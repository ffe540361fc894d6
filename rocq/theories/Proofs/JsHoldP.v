(** When a subscription of the JavaScript library is given up. *)
From Coq Require Import ZArith Arith List Lia Bool.
From Coq Require Import ZifyBool ZifyNat.
From Verif.Model Require Import JsHold.
From Verif.Spec Require Import JsHoldSpec.
Import ListNotations.

Lemma hset_length : forall A (l : list A) n a, length (hset l n a) = length l.
Proof. induction l; destruct n; cbn; intros; auto. Qed.
Lemma hset_inv : forall A (l : list A) n a m b, nth_error (hset l n a) m = Some b ->
  m = n /\ b = a \/ m <> n /\ nth_error l m = Some b.
Proof.
  induction l; destruct n, m; cbn; intros; try discriminate; auto.
  - injection H as <-. auto.
  - apply IHl in H. destruct H as [(-> & ->)|(H & E)]; auto.
Qed.

Lemma readers_snoc : forall g tr e, readers g (tr ++ [e]) =
  readers g tr ++ match snd e with HReader c g' => if Nat.eqb g' g then [c] else [] | _ => [] end.
Proof. intros. unfold readers. rewrite flat_map_app. cbn. now rewrite app_nil_r. Qed.
Lemma closings_snoc : forall g tr e, closings g (tr ++ [e]) =
  closings g tr ++ match e with (HClose c, HClosed g') => if Nat.eqb g' g then [c] else [] | _ => [] end.
Proof. intros. unfold closings. rewrite flat_map_app. cbn. now rewrite app_nil_r. Qed.
Lemma closings_app : forall g a b, closings g (a ++ b) = closings g a ++ closings g b.
Proof. intros. unfold closings. apply flat_map_app. Qed.

(** At some time there were more calls of [close] than readers. *)
Definition overdrawn (g : nat) (tr : htrace) : Prop :=
  exists b d, tr = b ++ d /\ length (closings g b) = S (length (readers g b)).
Lemma overdrawn_more : forall g tr e, overdrawn g tr -> overdrawn g (tr ++ [e]).
Proof. intros g tr e (b & d & -> & H). exists b, (d ++ [e]). split; auto. now rewrite <- app_assoc. Qed.

Definition gen_ok (g : nat) (h : hgen) (tr : htrace) : Prop :=
  hg_ended h = false ->
  hg_count h = (1 + Z.of_nat (length (readers g tr)) - Z.of_nat (length (closings g tr)))%Z /\
  (hg_idle h = true -> overdrawn g tr) /\ (hg_gone h = true -> overdrawn g tr) /\
  ((hg_count h <= 0)%Z -> hg_idle h = true /\ (hg_ok h = true -> hg_gone h = true)).

Record hinv (s : hold) (tr : htrace) : Prop := {
  h_gens : forall g h, nth_error (hs_gens s) g = Some h -> gen_ok g h tr;
  h_cons : forall c g, nth_error (hs_cons s) c = Some g -> (g < length (hs_gens s))%nat /\ In c (readers g tr);
  h_new : forall g, (length (hs_gens s) <= g)%nat -> readers g tr = [] /\ closings g tr = [];
  h_sub : forall g, incl (closings g tr) (readers g tr) }.

Lemma h_init : hinv hs_init [].
Proof. constructor; cbn; intros; auto; try (destruct g; discriminate); try (destruct c; discriminate). intros x []. Qed.

Lemma current_nth : forall s g h, current s = Some (g, h) -> nth_error (hs_gens s) g = Some h /\ hg_ended h = false.
Proof.
  intros s g h H. unfold current in H. destruct (length (hs_gens s)) as [|k] eqn:L; [discriminate|].
  destruct (nth_error (hs_gens s) k) as [x|] eqn:N; [|discriminate]. destruct (hg_ended x) eqn:E; [discriminate|].
  injection H as <- <-. auto.
Qed.

Lemma gen_same : forall g h tr e, readers g (tr ++ [e]) = readers g tr -> closings g (tr ++ [e]) = closings g tr ->
  gen_ok g h tr -> gen_ok g h (tr ++ [e]).
Proof.
  intros g h tr e R C H E. destruct (H E) as (A & B & D & F). rewrite R, C. split; auto. split; [|split]; auto; intros X; apply overdrawn_more; auto.
Qed.

Lemma h_step : forall s tr o s' out, hinv s tr -> hstep s o = (s', out) -> hinv s' (tr ++ [(o, out)]).
Proof.
  intros s tr o s' out [GENS CONS NEW SUB] S.
  assert (LT : forall g h, nth_error (hs_gens s) g = Some h -> (g < length (hs_gens s))%nat).
  { intros g h N. apply nth_error_Some. congruence. }
  (* nothing about readers *)
  assert (QUIET : forall gens out, (forall c g, out <> HReader c g) -> (forall g, out <> HClosed g) ->
    length gens = length (hs_gens s) -> (forall g h, nth_error gens g = Some h -> gen_ok g h (tr ++ [(o, out)])) ->
    hinv (Hold gens (hs_cons s)) (tr ++ [(o, out)])).
  { clear s' out S. intros gens out N1 N2 L G.
    assert (R : forall g, readers g (tr ++ [(o, out)]) = readers g tr).
    { intros g. rewrite readers_snoc. cbn. destruct out; try apply app_nil_r. destruct (N1 _ _ eq_refl). }
    assert (C : forall g, closings g (tr ++ [(o, out)]) = closings g tr).
    { intros g. rewrite closings_snoc. destruct o, out; try apply app_nil_r. destruct (N2 _ eq_refl). }
    constructor; cbn [hs_gens hs_cons]; auto.
    - intros c g X. rewrite L, R. auto.
    - intros g X. rewrite R, C. rewrite L in X. auto.
    - intros g. rewrite R, C. auto. }
  assert (IDLE : hinv s (tr ++ [(o, HIdle)])).
  { destruct s as [gens cons]. apply QUIET; try discriminate; auto. intros g h N. apply gen_same; auto.
    - rewrite readers_snoc. apply app_nil_r.
    - rewrite closings_snoc. destruct o; apply app_nil_r. }
  (* another reader of g *)
  assert (MORE : forall g h c, nth_error (hs_gens s) g = Some h -> c = length (hs_cons s) -> (forall c, o <> HClose c) ->
    hinv (Hold (hset (hs_gens s) g (w_consume h)) (hs_cons s ++ [g])) (tr ++ [(o, HReader c g)])).
  { intros g h c N -> NC.
    assert (C : forall g', closings g' (tr ++ [(o, HReader (length (hs_cons s)) g)]) = closings g' tr).
    { intros g'. rewrite closings_snoc. destruct o; apply app_nil_r. }
    constructor; cbn [hs_gens hs_cons].
    - intros g' h' X. apply hset_inv in X. destruct X as [[-> ->]|[NE X]].
      + intros E. cbn in E. destruct (GENS _ _ N E) as (A & B & D & F). rewrite C, readers_snoc. cbn [snd]. rewrite Nat.eqb_refl, app_length. cbn [length w_consume hg_count hg_idle hg_gone hg_ok].
        split; [lia|]. split; [destruct (hg_count h =? 0)%Z; [discriminate|]; intros Z; apply overdrawn_more; auto|].
        split; [intros Z; apply overdrawn_more; auto|]. intros Z. destruct (hg_count h =? 0)%Z eqn:Y; [lia|]. apply F. lia.
      + apply gen_same; auto. rewrite readers_snoc. cbn. destruct (Nat.eqb g g') eqn:Q; [apply Nat.eqb_eq in Q; congruence|apply app_nil_r].
    - intros c g' X. rewrite hset_length, readers_snoc. cbn. destruct (Nat.lt_ge_cases c (length (hs_cons s))).
      + rewrite nth_error_app1 in X by auto. destruct (CONS _ _ X). split; auto. apply in_or_app; auto.
      + rewrite nth_error_app2 in X by auto. destruct (c - length (hs_cons s))%nat as [|k] eqn:K; [|destruct k; discriminate].
        cbn in X. injection X as <-. split; [eauto|]. rewrite Nat.eqb_refl. apply in_or_app. right. left. lia.
    - intros g' X. rewrite hset_length in X. destruct (NEW _ X) as [A B]. rewrite C, readers_snoc, A. cbn. split; auto.
      destruct (Nat.eqb g g') eqn:Q; auto. apply Nat.eqb_eq in Q. subst g'. apply LT in N. lia.
    - intros g'. rewrite C, readers_snoc. intros x X. apply in_or_app. left. apply SUB. auto. }
  (* a change of the current one *)
  assert (CUR : forall g h h' out, (forall c g, out <> HReader c g) -> (forall g, out <> HClosed g) -> nth_error (hs_gens s) g = Some h -> 
    gen_ok g h' tr -> hinv (Hold (hset (hs_gens s) g h') (hs_cons s)) (tr ++ [(o, out)])).
  { clear s' out S. intros g h h' out N1 N2 N G. apply QUIET; auto; [apply hset_length|].
    intros g' x X. assert (gen_ok g' x tr) by (apply hset_inv in X; destruct X as [[-> ->]|[_ X]]; auto). apply gen_same; auto.
    - rewrite readers_snoc. cbn. destruct out; try apply app_nil_r. destruct (N1 _ _ eq_refl).
    - rewrite closings_snoc. destruct o, out; try apply app_nil_r. destruct (N2 _ eq_refl). }
  destruct o; cbn in S.
  - destruct (current s) as [[g h]|] eqn:K; injection S as <- <-.
    + apply current_nth in K. destruct K as [N E]. apply MORE; auto. discriminate.
    + set (g := length (hs_gens s)). destruct (NEW g (Nat.le_refl _)) as [NR NC].
      assert (C : forall g', closings g' (tr ++ [(HSubscribe, HReader (length (hs_cons s)) g)]) = closings g' tr) by (intros; rewrite closings_snoc; apply app_nil_r).
      constructor; cbn [hs_gens hs_cons].
      * intros g' h' X. destruct (Nat.lt_ge_cases g' g).
        { rewrite nth_error_app1 in X by auto. apply gen_same; auto. rewrite readers_snoc. cbn.
          destruct (Nat.eqb g g') eqn:Q; [apply Nat.eqb_eq in Q; lia|apply app_nil_r]. }
        rewrite nth_error_app2 in X by auto. destruct (g' - length (hs_gens s))%nat as [|k] eqn:Q; [|destruct k; discriminate].
        cbn in X. injection X as <-. assert (g' = g) by (unfold g in *; lia). subst g'. intros _. rewrite C, readers_snoc, NR, NC. cbn. rewrite Nat.eqb_refl. cbn.
        split; [lia|]. split; [discriminate|]. split; [discriminate|]. intros Z. lia.
      * intros c g' X. rewrite app_length, readers_snoc. cbn [snd length]. destruct (Nat.lt_ge_cases c (length (hs_cons s))).
        { rewrite nth_error_app1 in X by auto. destruct (CONS _ _ X). split; [lia|]. apply in_or_app; auto. }
        rewrite nth_error_app2 in X by auto. destruct (c - length (hs_cons s))%nat as [|k] eqn:K2; [|destruct k; discriminate].
        cbn in X. injection X as <-. split; [unfold g; lia|]. rewrite Nat.eqb_refl. apply in_or_app. right. left. lia.
      * intros g' X. rewrite app_length in X. cbn in X. destruct (NEW g') as [A B]; [lia|]. rewrite C, readers_snoc, A. cbn. split; auto.
        destruct (Nat.eqb g g') eqn:Q; auto. apply Nat.eqb_eq in Q. unfold g in Q. lia.
      * intros g'. rewrite C, readers_snoc. intros x X. apply in_or_app. left. apply SUB. auto.
  - destruct (nth_error (hs_cons s) c) as [g|]; [|injection S as <- <-; auto].
    destruct (nth_error (hs_gens s) g) as [h|] eqn:N; injection S as <- <-; auto. apply MORE; auto. discriminate.
  - destruct (nth_error (hs_cons s) c) as [g|] eqn:K; [|injection S as <- <-; auto].
    destruct (nth_error (hs_gens s) g) as [h|] eqn:N; injection S as <- <-; auto.
    assert (R : forall g', readers g' (tr ++ [(HClose c, HClosed g)]) = readers g' tr) by (intros; rewrite readers_snoc; apply app_nil_r).
    constructor; cbn [hs_gens hs_cons].
    + intros g' h' X. apply hset_inv in X. destruct X as [[-> ->]|[NE X]].
      * intros E. cbn in E. destruct (GENS _ _ N E) as (A & B & D & F). rewrite R, closings_snoc, Nat.eqb_refl, app_length. cbn [length].
        split; [cbn [w_unsubscribe hg_count]; lia|].
        assert (Z : (hg_count h - 1 =? 0)%Z = true -> overdrawn g (tr ++ [(HClose c, HClosed g)])).
        { intros Z. exists (tr ++ [(HClose c, HClosed g)]), []. split; [now rewrite app_nil_r|].
          rewrite R, closings_snoc, Nat.eqb_refl, app_length. cbn [length]. lia. }
        cbn [w_unsubscribe hg_count hg_idle hg_gone hg_ok]. split; [|split]; intros Y.
        { apply orb_prop in Y. destruct Y; auto. apply overdrawn_more; auto. }
        { apply orb_prop in Y. destruct Y as [Y|Y]; [apply overdrawn_more; auto|]. apply andb_prop in Y. apply Z. apply Y. }
        { destruct (hg_count h - 1 =? 0)%Z eqn:Q; [cbn; split; auto; intros ->; apply orb_true_r|].
          destruct (F ltac:(lia)) as [F1 F2]. rewrite F1. split; auto. intros O. rewrite (F2 O). auto. }
      * apply gen_same; auto. rewrite closings_snoc. destruct (Nat.eqb g g') eqn:Q; [apply Nat.eqb_eq in Q; congruence|apply app_nil_r].
    + intros c' g' X. rewrite hset_length, R. auto.
    + intros g' X. rewrite hset_length in X. destruct (NEW _ X) as [A B]. rewrite R, closings_snoc, B. split; auto. cbn.
      destruct (Nat.eqb g g') eqn:Q; auto. apply Nat.eqb_eq in Q. subst g'. apply LT in N. lia.
    + intros g'. rewrite R, closings_snoc. intros x X. apply in_app_or in X. destruct X as [X|X]; [apply SUB; auto|].
      destruct (Nat.eqb g g') eqn:Q; [|destruct X]. destruct X as [<-|[]]. apply Nat.eqb_eq in Q. subst g'. apply (CONS _ _ K).
  - destruct (current s) as [[g h]|] eqn:K; [|injection S as <- <-; auto]. destruct (hg_ok h); injection S as <- <-; auto.
    apply current_nth in K. destruct K as [N E]. eapply CUR; eauto; try discriminate.
    intros _. destruct (GENS _ _ N E) as (A & B & D & F). cbn. split; auto. split; auto. split; auto. intros Z. destruct (F Z). auto.
  - destruct (current s) as [[g h]|] eqn:K; injection S as <- <-; auto.
    apply current_nth in K. destruct K as [N E]. eapply CUR; eauto; try discriminate; intros X; discriminate.
  - destruct (current s) as [[g h]|] eqn:K; [|injection S as <- <-; auto]. destruct (hg_gone h); injection S as <- <-; auto.
    apply current_nth in K. destruct K as [N E]. eapply CUR; eauto; try discriminate; intros X; discriminate.
Qed.

Lemma stopped_from : forall ops s tr s' tr', hinv s tr -> hrun s ops = (s', tr') -> forall a g c, tr' = a ++ (HUnused, HStopped g) :: c ->
  overdrawn g (tr ++ a) /\ incl (closings g (tr ++ a)) (readers g (tr ++ a)).
Proof.
  induction ops as [|o ops IH]; cbn; intros s tr s' tr' J H a g c E.
  - injection H as <- <-. destruct a; discriminate.
  - destruct (hstep s o) as [s1 out] eqn:S. destruct (hrun s1 ops) as [s2 tr2] eqn:Q. injection H as <- <-.
    destruct a as [|x a]; cbn in E.
    + injection E as -> -> _. rewrite app_nil_r. split; [|apply J]. cbn in S.
      destruct (current s) as [[g' h]|] eqn:K; [|discriminate]. destruct (hg_gone h) eqn:G; [|discriminate]. injection S as _ <-.
      apply current_nth in K. destruct K as [N E]. now apply (h_gens _ _ J _ _ N E).
    + injection E as <- E. assert (EQ : tr ++ (o, out) :: a = (tr ++ [(o, out)]) ++ a) by (now rewrite <- app_assoc). rewrite EQ.
      eapply IH; [eapply h_step; eauto|exact Q|exact E].
Qed.

Lemma stopped_when : forall ops s tr a g c, hrun hs_init ops = (s, tr) -> tr = a ++ (HUnused, HStopped g) :: c ->
  exists b d, a = b ++ d /\ length (closings g b) = S (length (readers g b)).
Proof. intros ops s tr a g c H E. apply (stopped_from ops hs_init [] s tr h_init H a g c E). Qed.

Lemma h_run_from : forall ops s tr s' tr', hinv s tr -> hrun s ops = (s', tr') -> hinv s' (tr ++ tr').
Proof.
  induction ops as [|o ops IH]; cbn; intros s tr s' tr' J H.
  - injection H as <- <-. now rewrite app_nil_r.
  - destruct (hstep s o) as [s1 out] eqn:S. destruct (hrun s1 ops) as [s2 tr2] eqn:E. injection H as <- <-.
    pose proof (h_step _ _ _ _ _ J S) as J1. specialize (IH _ _ _ _ J1 E). now rewrite <- app_assoc in IH.
Qed.

Lemma run_app : forall b ops s s' tr d, hrun s ops = (s', tr) -> tr = b ++ d -> exists ops' s'', hrun s ops' = (s'', b).
Proof.
  induction b as [|x b IH]; intros ops s s' tr d H E; [exists [], s; auto|].
  destruct ops as [|o ops]; cbn in H; [injection H as <- <-; discriminate|].
  destruct (hstep s o) as [s1 out] eqn:S. destruct (hrun s1 ops) as [s2 tr2] eqn:Q. injection H as <- <-. cbn in E. injection E as <- E.
  destruct (IH _ _ _ _ _ Q E) as (ops' & s'' & R). exists (o :: ops'), s''. cbn. now rewrite S, R.
Qed.

Lemma never_stopped : forall ops s tr g, hrun hs_init ops = (s, tr) -> closed_once tr -> ~ In (HUnused, HStopped g) tr.
Proof.
  intros ops s tr g H ONCE I. apply in_split in I. destruct I as (a & c & E).
  destruct (stopped_when _ _ _ _ _ _ H E) as (b & d & EA & L).
  assert (EB : tr = b ++ (d ++ (HUnused, HStopped g) :: c)) by (rewrite E, EA; now rewrite <- app_assoc).
  destruct (run_app _ _ _ _ _ _ H EB) as (ops' & s'' & R). pose proof (h_run_from _ _ _ _ _ h_init R) as J. cbn in J.
  pose proof (ONCE g) as ND. rewrite EB, closings_app in ND.
  assert (NB : NoDup (closings g b)).
  { clear - ND. induction (closings g b); [constructor|]. cbn in ND. inversion ND; subst. constructor; auto. intros X. apply H1. apply in_or_app. auto. }
  pose proof (NoDup_incl_length NB (h_sub _ _ J g)). lia.
Qed.

(** It is given up once there has been one more call of [close] than there are readers. *)
Lemma stopped_then : forall ops s tr g c, hrun hs_init ops = (s, tr) -> snd (hstep s HOk) = HIdle -> snd (hstep s HSubscribe) = HReader c g ->
  length (closings g tr) = S (length (readers g tr)) -> snd (hstep s HUnused) = HStopped g.
Proof.
  intros ops s tr g c H K R L. pose proof (h_run_from _ _ _ _ _ h_init H) as J. cbn [app] in J. cbn in K, R |- *.
  destruct (current s) as [[g' h]|] eqn:E.
  - cbn in R. injection R as _ ->. pose proof (current_nth _ _ _ E) as [N X]. destruct (h_gens _ _ J _ _ N X) as (A & _ & _ & F).
    destruct (F ltac:(lia)) as [_ F2]. destruct (hg_ok h); [|discriminate]. rewrite (F2 eq_refl). auto.
  - cbn in R. injection R as _ <-. destruct (h_new _ _ J _ (Nat.le_refl _)) as [_ Z]. rewrite Z in L. discriminate.
Qed.
