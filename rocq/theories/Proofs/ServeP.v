(** The loop serving a track. *)
From Coq Require Import Permutation.
From Coq Require Import NArith ZArith List Lia Bool.
From Verif.Model Require Import Base ErrorCode Stream Publisher.
From Verif.Spec Require Import PublisherSpec.
Import ListNotations.
Open Scope nat_scope.

Lemma NoDup_app_intro {A} (l1 l2 : list A) : NoDup l1 -> NoDup l2 -> (forall x, In x l1 -> ~ In x l2) -> NoDup (l1 ++ l2).
Proof.
  induction l1 as [|a l1 IH]; intros H1 H2 D; [exact H2|]. inversion H1; subst. cbn. constructor.
  - rewrite in_app_iff. intros [H|H]; [contradiction|]. exact (D a (or_introl eq_refl) H).
  - apply IH; auto. intros x H. apply D. cbn; auto.
Qed.

Section Serve.
Variables (m : mode) (prio : N).

Lemma srun_snoc ops : forall s o, srun m prio s (ops ++ [o]) =
  let (s1, tr) := srun m prio s ops in let (s2, x) := sstep m prio s1 o in (s2, tr ++ [(o, x)]).
Proof.
  induction ops as [|a ops IH]; intros s o; cbn [srun app].
  - destruct (sstep m prio s o); reflexivity.
  - destruct (sstep m prio s a) as [s1 x]. rewrite IH. destruct (srun m prio s1 ops) as [s2 tr].
    destruct (sstep m prio s2 o); reflexivity.
Qed.

Lemma started_snoc tr e : started (tr ++ [e]) = started tr ++ started_by e.
Proof. unfold started. rewrite flat_map_app. cbn. rewrite app_nil_r. reflexivity. Qed.
Lemma completed_snoc tr e : completed (tr ++ [e]) = completed tr ++ completed_by e.
Proof. unfold completed. rewrite flat_map_app. cbn. rewrite app_nil_r. reflexivity. Qed.
Lemma cancelled_snoc tr e : cancelled (tr ++ [e]) = cancelled tr ++ cancelled_by e.
Proof. unfold cancelled. rewrite flat_map_app. cbn. rewrite app_nil_r. reflexivity. Qed.
Lemma obtained_snoc tr e : obtained (tr ++ [e]) = obtained tr ++ obtained_of e.
Proof. unfold obtained. rewrite flat_map_app. cbn. rewrite app_nil_r. reflexivity. Qed.
Lemma over_snoc tr e : is_over (tr ++ [e]) <-> is_over tr \/ returned_by e = true.
Proof.
  unfold is_over. split.
  - intros (x & H & E). apply in_app_or in H. destruct H as [H|[<-|[]]]; eauto.
  - intros [(x & H & E)|E]; [exists x|exists e]; split; auto; apply in_or_app; cbn; auto.
Qed.

(** [st] groups were started, those in [fl] are in flight. *)
Record acct (tr : list sevent) (st : nat) (fl : list nat) : Prop := {
  ac_started : started tr = seq 0 st;
  ac_fl : forall i, In i fl <-> in_flight tr i;
  ac_once : NoDup (completed tr ++ cancelled tr);
  ac_incl : incl (completed tr ++ cancelled tr) (started tr) }.

Record sinv (s : tserve) (tr : list sevent) : Prop := {
  si_over : tv_over s = true <-> is_over tr;
  si_count : length (obtained tr) = tv_count s;
  si_shape : tv_over s = false ->
    match tv_old s, tv_new s with
    | None, None => tv_count s = 0 \/ In (tv_count s - 1) (completed tr)
    | None, Some k => k + 1 = tv_count s
    | Some j, Some k => k + 1 = tv_count s /\ j + 2 = tv_count s
    | Some _, None => False
    end;
  si_acct : exists st, acct tr st (if tv_over s then [] else opt_list (tv_old s) ++ opt_list (tv_new s)) /\
    (tv_over s = false -> st = tv_count s) }.

Lemma sinv_new : sinv tserve_new [].
Proof.
  split; cbn; auto.
  - split; [discriminate|]. intros (e & [] & _).
  - exists 0. split; [|auto]. split; [reflexivity| |constructor|intros x []].
    intros i. unfold in_flight. cbn. tauto.
Qed.

(** How the account changes. *)
Lemma acct_step tr st fl e new fin : acct tr st fl ->
  started_by e = new -> (new = [] \/ new = [st]) ->
  completed_by e ++ cancelled_by e = fin -> NoDup fin -> incl fin fl ->
  acct (tr ++ [e]) (st + length new) (filter (fun i => negb (existsb (Nat.eqb i) fin)) fl ++ new).
Proof.
  intros [A1 A2 A3 A4] E1 Hn E2 N2 I2.
  assert (FI : forall i, existsb (Nat.eqb i) fin = true <-> In i fin).
  { intros i. rewrite existsb_exists. split.
    - intros (x & H & E). apply Nat.eqb_eq in E. subst. exact H.
    - intros H. exists i. split; [exact H|apply Nat.eqb_refl]. }
  assert (FN : forall i, In i fin -> In i (started tr) /\ ~ In i (completed tr) /\ ~ In i (cancelled tr)).
  { intros i H. apply A2. apply I2. exact H. }
  assert (NEW : forall i, In i new -> ~ In i (started tr)).
  { intros i H. destruct Hn as [->| ->]; [destruct H|]. destruct H as [<-|[]]. rewrite A1, in_seq. lia. }
  assert (Fsplit : forall i, In i fin <-> In i (completed_by e) \/ In i (cancelled_by e)).
  { intros i. rewrite <- E2. apply in_app_iff. }
  split.
  - rewrite started_snoc, E1, A1. destruct Hn as [->| ->]; cbn [length].
    + rewrite app_nil_r, Nat.add_0_r. reflexivity.
    + rewrite Nat.add_1_r, seq_S. reflexivity.
  - intros i. unfold in_flight. rewrite started_snoc, completed_snoc, cancelled_snoc, !in_app_iff, filter_In, negb_true_iff, E1, A2.
    unfold in_flight. split.
    + intros [[(B1 & B2 & B3) B4]|B].
      * assert (~ In i fin) by (intros H; apply FI in H; congruence). rewrite Fsplit in H. tauto.
      * assert (~ In i fin) by (intros H; apply FN in H; apply (NEW i B); tauto). rewrite Fsplit in H.
        specialize (NEW i B).
        assert (~ In i (completed tr ++ cancelled tr)) by (intros H'; apply A4 in H'; contradiction).
        rewrite in_app_iff in H0. tauto.
    + intros ([B|B] & C1 & C2); [left|right; exact B]. split; [tauto|].
      destruct (existsb (Nat.eqb i) fin) eqn:X; [|reflexivity]. apply FI in X. apply Fsplit in X. tauto.
  - rewrite completed_snoc, cancelled_snoc.
    assert (P : NoDup ((completed tr ++ cancelled tr) ++ fin)).
    { apply NoDup_app_intro; auto. intros i H1 H2. apply FN in H2. rewrite in_app_iff in H1. tauto. }
    eapply Permutation_NoDup; [|exact P]. rewrite <- E2.
    rewrite <- !app_assoc. apply Permutation.Permutation_app_head.
    rewrite !app_assoc. apply Permutation.Permutation_app_tail. apply Permutation.Permutation_app_comm.
  - rewrite completed_snoc, cancelled_snoc, started_snoc. intros i. rewrite !in_app_iff.
    intros [[H|H]|[H|H]].
    + left. apply A4, in_or_app. auto.
    + left. apply FN, Fsplit. auto.
    + left. apply A4, in_or_app. auto.
    + left. apply FN, Fsplit. auto.
Qed.

(** Nothing of note happened. *)
Lemma acct_quiet tr st fl e : acct tr st fl -> started_by e = [] -> completed_by e = [] -> cancelled_by e = [] ->
  acct (tr ++ [e]) st fl.
Proof.
  intros [A1 A2 A3 A4] E1 E2 E3. split.
  - rewrite started_snoc, E1, app_nil_r. exact A1.
  - intros i. unfold in_flight. rewrite started_snoc, completed_snoc, cancelled_snoc, E1, E2, E3, !app_nil_r. apply A2.
  - rewrite completed_snoc, cancelled_snoc, E2, E3, !app_nil_r. exact A3.
  - rewrite completed_snoc, cancelled_snoc, started_snoc, E1, E2, E3, !app_nil_r. exact A4.
Qed.


Lemma filter_none {A} (f : A -> bool) l : (forall x, In x l -> f x = false) -> filter f l = [].
Proof. induction l as [|a l IH]; intros H; cbn; [reflexivity|]. rewrite (H a) by (cbn; auto). apply IH. intros x Hx. apply H. cbn; auto. Qed.

Lemma returned_quiet o x : started_by (o, x) = [] -> completed_by (o, x) = [] -> returned_by (o, x) = true ->
  forall tr st fl, acct tr st fl -> NoDup fl -> cancelled_by (o, x) = fl -> acct (tr ++ [(o, x)]) st [].
Proof.
  intros E1 E2 _ tr st fl A N C.
  pose proof (acct_step tr st fl (o, x) [] fl A E1 (or_introl eq_refl)) as H.
  rewrite E2, C in H. specialize (H eq_refl N (fun i Hi => Hi)).
  rewrite app_nil_r, Nat.add_0_r, filter_none in H; [exact H|].
  intros i Hi. rewrite negb_false_iff, existsb_exists. exists i. split; [exact Hi|apply Nat.eqb_refl].
Qed.

Lemma fl_nodup tr st s : sinv s tr -> tv_over s = false ->
  acct tr st (opt_list (tv_old s) ++ opt_list (tv_new s)) -> NoDup (opt_list (tv_old s) ++ opt_list (tv_new s)).
Proof.
  intros I O _. pose proof (si_shape _ _ I O) as S. destruct (tv_old s) as [j|], (tv_new s) as [k|]; cbn; try contradiction.
  - destruct S. constructor; [cbn; lia|]. constructor; [tauto|constructor].
  - constructor; [tauto|constructor].
  - constructor.
Qed.

Lemma sinv_step s tr o s' x : sinv s tr -> sstep m prio s o = (s', x) -> sinv s' (tr ++ [(o, x)]).
Proof.
  intros I H. unfold sstep in H. destruct (tv_over s) eqn:O.
  - (* left already *)
    injection H as <- <-. destruct I as [I1 I2 I3 (st & A & AS)]. rewrite O in *. split; rewrite ?O.
    + rewrite over_snoc. cbn. intuition discriminate.
    + rewrite obtained_snoc. destruct o; cbn; rewrite app_nil_r; exact I2.
    + discriminate.
    + exists st. split; [|discriminate]. apply acct_quiet; auto.
  - pose proof (si_shape _ _ I O) as S. destruct (si_acct _ _ I) as (st & A & AS). rewrite O in A. specialize (AS O). subst st.
    pose proof (fl_nodup tr _ s I O A) as ND. pose proof (si_over _ _ I) as IO. pose proof (si_count _ _ I) as IC.
    assert (LEFT : forall r n, returned_by (o, r) = true -> started_by (o, r) = [] -> completed_by (o, r) = [] ->
      cancelled_by (o, r) = opt_list (tv_old s) ++ opt_list (tv_new s) -> length (obtained_of (o, r)) + tv_count s = n ->
      sinv (left_loop n) (tr ++ [(o, r)])).
    { intros r n R1 R2 R3 R4 R5. split; cbn.
      - rewrite over_snoc. intuition.
      - rewrite obtained_snoc, app_length. lia.
      - discriminate.
      - exists (tv_count s). split; [|discriminate].
        exact (returned_quiet o r R2 R3 R1 tr _ _ A ND R4). }
    assert (NOTOVER : forall r, returned_by (o, r) = false -> (false = true <-> is_over (tr ++ [(o, r)]))).
    { intros r R. rewrite over_snoc, R, <- IO, O. intuition. }
    destruct o as [q|e| | | |].
    + (* a group *)
      destruct (stream_priority m prio q) as [p|] eqn:SP.
      2: { injection H as <- <-. apply LEFT; reflexivity. }
      destruct (tv_new s) as [k|] eqn:EN.
      * injection H as <- <-.
        assert (C : incl (opt_list (tv_old s)) (opt_list (tv_old s) ++ opt_list (Some k))) by (intros i Hi; apply in_or_app; auto).
        assert (NO : NoDup (opt_list (tv_old s))) by (destruct (tv_old s); cbn; constructor; [tauto|constructor]).
        pose proof (acct_step tr (tv_count s) _ (SGroup q, SStarted (tv_count s) p (opt_list (tv_old s))) [tv_count s]
          (opt_list (tv_old s)) A eq_refl (or_intror eq_refl) eq_refl NO C) as A'.
        split; cbn.
        -- apply NOTOVER. reflexivity.
        -- rewrite obtained_snoc, app_length. cbn. lia.
        -- intros _. destruct (tv_old s); lia.
        -- exists (tv_count s + 1). split; [|lia]. cbn [length] in A'.
           match type of A' with acct _ _ ?l => replace [k; tv_count s] with l end; [exact A'|].
           destruct (tv_old s) as [j|]; cbn; [|reflexivity]. rewrite Nat.eqb_refl. cbn.
           replace (k =? j) with false by (symmetry; apply Nat.eqb_neq; lia). reflexivity.
      * destruct (tv_old s) as [j|] eqn:EO; [contradiction|]. injection H as <- <-.
        pose proof (acct_step tr (tv_count s) _ (SGroup q, SStarted (tv_count s) p []) [tv_count s]
          [] A eq_refl (or_intror eq_refl) eq_refl (NoDup_nil _) (fun i Hi => match Hi with end)) as A'.
        split; cbn.
        -- apply NOTOVER. reflexivity.
        -- rewrite obtained_snoc, app_length. cbn. lia.
        -- intros _. lia.
        -- exists (tv_count s + 1). split; [exact A'|lia].
    + injection H as <- <-. apply LEFT; reflexivity.
    + destruct (tv_old s) as [j|] eqn:EO, (tv_new s) as [k|] eqn:EN; try contradiction; injection H as <- <-.
      * split; rewrite ?O, ?EO, ?EN; auto.
        -- rewrite obtained_snoc. cbn. rewrite app_nil_r. exact IC.
        -- exists (tv_count s). split; [|auto]. apply acct_quiet; auto.
      * split; rewrite ?O, ?EO, ?EN; auto.
        -- rewrite obtained_snoc. cbn. rewrite app_nil_r. exact IC.
        -- exists (tv_count s). split; [|auto]. apply acct_quiet; auto.
      * apply LEFT; reflexivity.
    + destruct (tv_old s) as [j|] eqn:EO.
      * injection H as <- <-. destruct (tv_new s) as [k|] eqn:EN; [|contradiction].
        pose proof (acct_step tr (tv_count s) _ (SOldDone, SCompleted j []) [] [j] A eq_refl (or_introl eq_refl) eq_refl) as A'.
        specialize (A' ltac:(constructor; [intros []|constructor]) ltac:(intros i [<-|[]]; cbn; auto)).
        split; cbn.
        -- apply NOTOVER. reflexivity.
        -- rewrite obtained_snoc. cbn. rewrite app_nil_r. exact IC.
        -- intros _. lia.
        -- exists (tv_count s). split; [|auto]. rewrite Nat.add_0_r in A'.
           cbn in A'. rewrite Nat.eqb_refl in A'. cbn in A'.
           replace (k =? j) with false in A' by (symmetry; apply Nat.eqb_neq; lia). exact A'.
      * injection H as <- <-. split; rewrite ?O, ?EO; auto.
        -- rewrite obtained_snoc. cbn. rewrite app_nil_r. exact IC.
        -- intros _. destruct (tv_new s); [exact S|]. destruct S; [auto|right].
           rewrite completed_snoc. cbn. rewrite app_nil_r. exact H.
        -- exists (tv_count s). split; [|auto]. apply acct_quiet; auto.
    + destruct (tv_new s) as [k|] eqn:EN.
      * injection H as <- <-.
        assert (NO : NoDup ([k] ++ opt_list (tv_old s))).
        { destruct (tv_old s) as [j|]; cbn; repeat constructor; cbn; try tauto. lia. }
        assert (C : incl ([k] ++ opt_list (tv_old s)) (opt_list (tv_old s) ++ opt_list (Some k))).
        { intros i. cbn. rewrite in_app_iff. cbn. intuition. }
        pose proof (acct_step tr (tv_count s) _ (SNewDone, SCompleted k (opt_list (tv_old s))) []
          ([k] ++ opt_list (tv_old s)) A eq_refl (or_introl eq_refl) eq_refl NO C) as A'.
        split; cbn.
        -- apply NOTOVER. reflexivity.
        -- rewrite obtained_snoc. cbn. rewrite app_nil_r. exact IC.
        -- intros _. right. rewrite completed_snoc, in_app_iff. right. cbn. left. destruct (tv_old s); lia.
        -- exists (tv_count s). split; [|auto]. rewrite Nat.add_0_r, app_nil_r, filter_none in A'; [exact A'|].
           intros i Hi. rewrite negb_false_iff, existsb_exists. exists i. split; [|apply Nat.eqb_refl].
           cbn. apply in_app_or in Hi. cbn in Hi. intuition.
      * injection H as <- <-. split; rewrite ?O, ?EN; auto.
        -- rewrite obtained_snoc. cbn. rewrite app_nil_r. exact IC.
        -- intros _. destruct (tv_old s); [exact S|]. destruct S; [auto|right].
           rewrite completed_snoc. cbn. rewrite app_nil_r. exact H.
        -- exists (tv_count s). split; [|auto]. apply acct_quiet; auto.
    + injection H as <- <-. apply LEFT; reflexivity.
Qed.

Lemma sinv_run ops : forall s tr, srun m prio tserve_new ops = (s, tr) -> sinv s tr.
Proof.
  induction ops as [|o ops IH] using rev_ind; intros s tr H.
  - injection H as <- <-. apply sinv_new.
  - rewrite srun_snoc in H. destruct (srun m prio tserve_new ops) as [s1 t1].
    destruct (sstep m prio s1 o) as [s2 x] eqn:E. injection H as <- <-.
    eapply sinv_step; [apply IH; reflexivity|exact E].
Qed.

(** ** Statements *)
Lemma at_most_two ops s tr : srun m prio tserve_new ops = (s, tr) ->
  exists fl, NoDup fl /\ (length fl <= 2) /\ (forall i, in_flight tr i <-> In i fl) /\
    (forall i, In i fl -> i + 2 >= length (obtained tr) /\ i < length (obtained tr)) /\ (is_over tr -> fl = []).
Proof.
  intros H. pose proof (sinv_run _ _ _ H) as I. destruct (si_acct _ _ I) as (st & A & AS).
  destruct (tv_over s) eqn:O.
  - exists []. split; [constructor|]. split; [cbn; lia|]. split; [intros i; symmetry; apply (ac_fl _ _ _ A)|].
    split; [intros i []|auto].
  - exists (opt_list (tv_old s) ++ opt_list (tv_new s)). split; [eapply fl_nodup; eauto|].
    split; [destruct (tv_old s), (tv_new s); cbn; lia|]. split; [intros i; symmetry; apply (ac_fl _ _ _ A)|].
    split.
    + pose proof (si_shape _ _ I O) as S. rewrite (si_count _ _ I).
      intros i Hi. destruct (tv_old s), (tv_new s); cbn in Hi; try contradiction; intuition lia.
    + intros HO. apply (si_over _ _ I) in HO. congruence.
Qed.

Lemma newest_kept ops s tr k : srun m prio tserve_new ops = (s, tr) -> ~ is_over tr ->
  length (obtained tr) = S k -> in_flight tr k \/ In k (completed tr).
Proof.
  intros H NO L. pose proof (sinv_run _ _ _ H) as I. destruct (si_acct _ _ I) as (st & A & AS).
  destruct (tv_over s) eqn:O; [exfalso; apply NO, (si_over _ _ I), O|].
  pose proof (si_shape _ _ I O) as S. rewrite (si_count _ _ I) in L.
  destruct (tv_new s) as [n|] eqn:EN.
  - left. apply (ac_fl _ _ _ A). rewrite in_app_iff. right. cbn. left. destruct (tv_old s); lia.
  - destruct (tv_old s); [contradiction|]. right. rewrite L in S. replace (Datatypes.S k - 1) with k in S by lia. destruct S; [lia|exact H0].
Qed.

Lemma cancelled_why ops s tr o s' x i : srun m prio tserve_new ops = (s, tr) -> sstep m prio s o = (s', x) ->
  In i (cancelled_by (o, x)) -> in_flight tr i /\
  ((exists q p c, o = SGroup q /\ x = SStarted (i + 2) p c) \/
   (o = SNewDone /\ x = SCompleted (i + 1) [i]) \/ returned_by (o, x) = true).
Proof.
  intros H E C. pose proof (sinv_run _ _ _ H) as I. destruct (si_acct _ _ I) as (st & A & AS).
  unfold sstep in E. destruct (tv_over s) eqn:O; [injection E as <- <-; destruct C|].
  pose proof (si_shape _ _ I O) as S. rewrite <- (ac_fl _ _ _ A).
  destruct o as [q|e| | | |].
  - destruct (stream_priority m prio q) as [p|].
    + destruct (tv_new s) as [k|] eqn:EN; injection E as <- <-; [|destruct C].
      cbn in C. split; [apply in_or_app; auto|]. left.
      destruct (tv_old s) as [j|]; [|destruct C]. destruct C as [<-|[]].
      exists q, p, [j]. split; [reflexivity|]. replace (j + 2) with (tv_count s) by lia. reflexivity.
    + injection E as <- <-. auto.
  - injection E as <- <-. auto.
  - destruct (tv_old s), (tv_new s); injection E as <- <-; destruct C.
  - destruct (tv_old s); injection E as <- <-; destruct C.
  - destruct (tv_new s) as [k|]; injection E as <- <-; [|destruct C]. cbn in C.
    split; [apply in_or_app; auto|]. right. left. destruct (tv_old s) as [j|]; [|destruct C].
    destruct C as [<-|[]]. split; [reflexivity|]. replace (j + 1) with k by lia. reflexivity.
  - injection E as <- <-. auto.
Qed.

Lemma newer_done_clears ops s tr o s' k c : srun m prio tserve_new ops = (s, tr) -> sstep m prio s o = (s', SCompleted k c) ->
  k + 1 = length (obtained tr) -> forall i, ~ in_flight (tr ++ [(o, SCompleted k c)]) i.
Proof.
  intros H E K i. pose proof (sinv_run _ _ _ H) as I. pose proof (sinv_step _ _ _ _ _ I E) as I'.
  destruct (si_acct _ _ I') as (st & A & _). rewrite <- (ac_fl _ _ _ A). clear A.
  unfold sstep in E. destruct (tv_over s) eqn:O; [discriminate|]. pose proof (si_shape _ _ I O) as S.
  rewrite (si_count _ _ I) in K. destruct o; try discriminate.
  - destruct (stream_priority m prio seq); [destruct (tv_new s)|]; discriminate.
  - destruct (tv_old s), (tv_new s); discriminate.
  - destruct (tv_old s) as [j|]; [|discriminate]. injection E as <- <- <-. destruct (tv_new s); lia.
  - destruct (tv_new s); [|discriminate]. injection E as <- <- <-. cbn. auto.
Qed.

Lemma clean_end_waits ops s tr o s' c : srun m prio tserve_new ops = (s, tr) -> sstep m prio s o = (s', SReturned None c) ->
  c = [] /\ forall i, ~ in_flight tr i.
Proof.
  intros H E. pose proof (sinv_run _ _ _ H) as I. destruct (si_acct _ _ I) as (st & A & _).
  unfold sstep in E. destruct (tv_over s) eqn:O; [discriminate|].
  destruct o; try discriminate.
  - destruct (stream_priority m prio seq); [destruct (tv_new s)|]; discriminate.
  - destruct (tv_old s) eqn:EO, (tv_new s) eqn:EN; try discriminate. injection E as <- <-. split; [reflexivity|].
    intros i. rewrite <- (ac_fl _ _ _ A). cbn. auto.
  - destruct (tv_old s); discriminate.
  - destruct (tv_new s); discriminate.
Qed.

Lemma fates ops s tr : srun m prio tserve_new ops = (s, tr) ->
  NoDup (completed tr ++ cancelled tr) /\ incl (completed tr ++ cancelled tr) (started tr) /\ NoDup (started tr).
Proof.
  intros H. pose proof (sinv_run _ _ _ H) as I. destruct (si_acct _ _ I) as (st & A & _).
  split; [apply A|]. split; [apply A|]. rewrite (ac_started _ _ _ A). apply seq_NoDup.
Qed.

End Serve.
