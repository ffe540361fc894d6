(** C148-C150: the clock program. *)
From Coq Require Import NArith List Lia Bool Sorted.
From Coq Require Import Init.Byte Strings.Byte.
From Verif.Model Require Import Base Clock.
From Verif.Spec Require Import ClockSpec.
From Verif.Proofs Require Import ClockP.
Import ListNotations.
Open Scope N_scope.

(** Some text: as many strokes as there were minutes. *)
Definition strokes (n : N) : bytes := repeat x7c (N.to_nat n) ++ [x3a].
Lemma strokes_distinct : distinct strokes.
Proof.
  intros a b E. unfold strokes in E. apply app_inj_tail in E as [E _]. apply (f_equal (@length _)) in E. rewrite !repeat_length in E. lia.
Qed.

(** C148: lines are the time.  The first line of a group is not in the future, and any other is the time at which it is
    published, up to whole hours, and exactly that within 59 minutes.  Missing for the full claim: below; and system
    clocks that are set. *)
Theorem C148_first_partial : forall text w ops s tr g l t, krun text (clock_new w) ops = (s, tr) -> steady tr -> first_line tr g l t ->
  exists u, reads text l u /\ u <= t.
Proof. intros text w ops s tr g l t R St F. destruct (first_says text w ops s tr R St g l t F) as (u & A & B). exists u. split; [exact A|lia]. Qed.
Print Assumptions C148_first_partial.
Theorem C148_next_exact : forall text w ops s tr g l t, krun text (clock_new w) ops = (s, tr) -> steady tr -> next_line tr g l t ->
  exists u k, reads text l u /\ t = u + k * hour.
Proof. intros text w ops s tr g l t R St. exact (next_says text w ops s tr R St g l t). Qed.
Print Assumptions C148_next_exact.
Theorem C148_next_partial : forall text w ops s tr g l0 t0 l t, krun text (clock_new w) ops = (s, tr) -> steady tr ->
  first_line tr g l0 t0 -> next_line tr g l t -> (forall u, reads text l0 u -> t < u + 59 * minute) -> reads text l t.
Proof. intros text w ops s tr g l0 t0 l t R St. exact (next_right text w ops s tr R St g l0 t0 l t). Qed.
Print Assumptions C148_next_partial.
(** The publisher does not panic, whatever the system clock does. *)
Theorem C148_alive : forall text w ops s tr op t, krun text (clock_new w) ops = (s, tr) -> ~ In (op, t, KPanic) tr.
Proof. intros text w ops s tr op t R. exact (never_panics text ops (clock_new w) s tr eq_refl R op t). Qed.
Print Assumptions C148_alive.

(** A computer that is suspended for an hour: the line has the hour before. *)
Definition suspended : list kop := [KRun; KSend 0; KPass 3601000000000; KSend 0].
Theorem C148_suspended : forall text, distinct text -> exists ops s tr g l t, krun text (clock_new 0) ops = (s, tr) /\ steady tr /\ next_line tr g l t /\ ~ reads text l t.
Proof.
  intros text D. exists suspended. eexists _, _, 0%nat, (text 0 ++ delta_of 1000000000), 3601000000000. split; [reflexivity|]. split; [|split].
  - intros a t x [H|[H|[H|[H|[]]]]]; apply ev_op in H; discriminate.
  - exists (KSend 0), (KSend 0), (text 0), (delta_of 1000000000), (delta_of 0), 0. repeat split; cbn [In]; tauto.
  - intros H. assert (reads text (text 0 ++ delta_of 1000000000) 1000000000) as K by (apply (reads_of text 1000000000 1000000000); reflexivity).
    pose proof (reads_minute _ _ _ _ D H K) as E. vm_compute in E. discriminate.
Qed.
Print Assumptions C148_suspended.
Theorem C148_refuted : exists text w ops s tr g l t, distinct text /\ krun text (clock_new w) ops = (s, tr) /\ steady tr /\ next_line tr g l t /\ ~ reads text l t.
Proof. destruct (C148_suspended strokes strokes_distinct) as (ops & s & tr & g & l & t & H). exists strokes, 0, ops, s, tr, g, l, t. split; [exact strokes_distinct|exact H]. Qed.
Print Assumptions C148_refuted.

(** C149: the clock does not keep up.  The first line of a group is late by exactly the sum of all the delays of the
    publisher's sleeps so far, besides the time its own task took to start; that has no bound, even if no sleep takes
    a millisecond too long. *)
Theorem C149_exact : forall text w ops s tr g l t, krun text (clock_new w) ops = (s, tr) -> steady tr -> first_line tr g l t ->
  exists u, reads text l u /\ u + delays tr g <= t /\ forall op tm late, In (op, tm, KMade g late) tr -> tm = u + delays tr g.
Proof. intros text w ops s tr g l t R St. exact (made_says text w ops s tr R St g l t). Qed.
Print Assumptions C149_exact.
Theorem C149_unbounded : forall text D, distinct text -> exists ops s tr g l t, krun text (clock_new 0) ops = (s, tr) /\ steady tr /\
  (forall op t g late, In (op, t, KMade g late) tr -> late <= 1000000) /\ (exists op late, In (op, t, KMade g late) tr) /\
  first_line tr g l t /\ forall u, reads text l u -> u + D <= t.
Proof. exact drifts. Qed.
Print Assumptions C149_unbounded.
(** For example an hour. *)
Theorem C149_refuted : exists text w ops s tr g l t, distinct text /\ krun text (clock_new w) ops = (s, tr) /\ steady tr /\
  (forall op t g late, In (op, t, KMade g late) tr -> late <= 1000000) /\ (exists op late, In (op, t, KMade g late) tr) /\
  first_line tr g l t /\ forall u, reads text l u -> u + hour <= t.
Proof. destruct (C149_unbounded strokes hour strokes_distinct) as (ops & s & tr & g & l & t & H). exists strokes, 0, ops, s, tr, g, l, t. split; [exact strokes_distinct|exact H]. Qed.
Print Assumptions C149_refuted.

(** C150: what a subscriber prints goes forward, if what is published is the time (C148). *)
Theorem C150_forward_partial : forall text w ops s tr, distinct text -> krun text (clock_new w) ops = (s, tr) -> steady tr ->
  (forall g l t, next_line tr g l t -> reads text l t) -> forward text (printed tr).
Proof. exact goes_forward. Qed.
Print Assumptions C150_forward_partial.
(** Suspended at half past for twenty seconds less than an hour, it goes back. *)
Definition back : list kop := [KRun; KSend 0; KRead; KRead; KRead; KPass 3580000000000; KSend 0; KRead].
Theorem C150_back : forall text, distinct text -> exists ops s tr, krun text (clock_new 30000000000) ops = (s, tr) /\ steady tr /\ ~ forward text (printed tr).
Proof.
  intros text D. exists back, (fst (krun text (clock_new 30000000000) back)), (snd (krun text (clock_new 30000000000) back)). split; [apply surjective_pairing|].
  let v := eval vm_compute in (snd (krun text (clock_new 30000000000) back)) in
  assert (V : snd (krun text (clock_new 30000000000) back) = v) by (vm_compute; reflexivity). rewrite V. clear V. split.
  - intros a t x H. cbn [In] in H. repeat (destruct H as [H|H]; [apply ev_op in H; discriminate|]). exact H.
  - intros (us & F & So).
    change (printed _) with [text 0 ++ delta_of 30000000000; text 0 ++ delta_of 10000000000] in F.
    inversion F as [|? u ? us1 A F1]; subst. inversion F1 as [|? v ? us2 B F2]; subst. inversion So as [|? ? _ Fa]; subst. inversion Fa as [|? ? L _]; subst.
    assert (P : forall q z, q < 60 -> reads text (text 0 ++ delta_of (q * second)) z -> z / second = q).
    { intros q z Lq Z. assert (Eq : (q * second) / second mod 60 = q) by (rewrite N.div_mul by exact second_pos; apply N.mod_small, Lq).
      assert (Z0 : reads text (text 0 ++ delta_of (q * second)) (q * second)).
      { assert (E0 : q * second / minute = 0) by (apply N.div_small; change minute with (60 * second); apply N.mul_lt_mono_pos_r; [reflexivity|exact Lq]).
        rewrite <- E0 at 1. apply reads_of. reflexivity. }
      pose proof (reads_minute _ _ _ _ D Z Z0) as Em.
      assert (E0 : q * second / minute = 0) by (apply N.div_small; change minute with (60 * second); apply N.mul_lt_mono_pos_r; [reflexivity|exact Lq]).
      rewrite E0, <- min_of_sec in Em. apply N.div_small_iff in Em; [|discriminate].
      destruct Z as (a & b & x & y & El & Hx & Hy & _ & _ & Ha). destruct Z0 as (a' & b' & x' & y' & El' & Hx' & Hy' & _ & _ & Ha').
      rewrite El in El'. change [x; y] with ([x] ++ [y]) in El'. change [x'; y'] with ([x'] ++ [y']) in El'. rewrite !app_assoc in El'.
      apply app_inj_tail in El' as [El' <-]. apply app_inj_tail in El' as [_ <-].
      rewrite <- (N.mod_small (z / second) 60 Em). rewrite <- Eq. unfold second. rewrite <- Ha. unfold second in Ha'. rewrite <- Ha'. lia. }
    apply (P 30) in A; [|reflexivity]. apply (P 10) in B; [|reflexivity]. unfold second in A, B. rewrite A, B in L. discriminate.
Qed.
Print Assumptions C150_back.
Theorem C150_refuted : exists text w ops s tr, distinct text /\ krun text (clock_new w) ops = (s, tr) /\ steady tr /\ ~ forward text (printed tr).
Proof. destruct (C150_back strokes strokes_distinct) as (ops & s & tr & H). exists strokes, 30000000000, ops, s, tr. split; [exact strokes_distinct|exact H]. Qed.
Print Assumptions C150_refuted.

(** A minute's end: started at 59.5 seconds, the subscriber prints ":59", and ":00", ":01" and ":02" of the next minute. *)
Definition at_59 : list kop :=
  [KRun; KSend 0; KRead; KRead; KRead; KPass 500000000; KSend 0; KRun; KRead; KRead; KSend 1; KRead; KRead; KRead; KPass 1200000000; KSend 1; KRead; KPass 700000000; KSend 1; KPass 200000000; KSend 1; KRead].
Example C148_example : distinct strokes /\ steady (snd (krun strokes (clock_new 59500000000) at_59)) /\
  printed (snd (krun strokes (clock_new 59500000000) at_59)) = [[x3a; x35; x39]; [x7c; x3a; x30; x30]; [x7c; x3a; x30; x31]; [x7c; x3a; x30; x32]] /\
  (forall g l t, next_line (snd (krun strokes (clock_new 59500000000) at_59)) g l t -> reads strokes l t) /\
  (exists l t, next_line (snd (krun strokes (clock_new 59500000000) at_59)) 1 l t).
Proof.
  split; [exact strokes_distinct|].
  let v := eval vm_compute in (snd (krun strokes (clock_new 59500000000) at_59)) in
  assert (V : snd (krun strokes (clock_new 59500000000) at_59) = v) by (vm_compute; reflexivity). rewrite V.
  split; [intros a t x H; cbn [In] in H; repeat (destruct H as [H|H]; [apply ev_op in H; discriminate|]); exact H|].
  split; [reflexivity|]. split.
  - intros g l t (op & op0 & b & d & d0 & t0 & H0 & H & ->). cbn [In] in H, H0.
    assert (K : forall (e : kevent) g d t op, (op, t, KWrote g d) = e -> match snd e with KWrote g1 d1 => g1 = g /\ d1 = d /\ snd (fst e) = t | _ => False end) by (intros e g1 d1 t1 op1 <-; cbn; auto).
    repeat (destruct H as [H|H]; [symmetry in H; apply K in H; cbn in H; try contradiction|]); try contradiction;
    repeat (destruct H0 as [H0|H0]; [symmetry in H0; apply K in H0; cbn in H0; try contradiction|]); try contradiction.
    all: destruct H as (G & Dd & T), H0 as (G0 & Dd0 & T0); try discriminate Dd; try discriminate Dd0; try (rewrite <- G in G0; discriminate G0).
    all: injection Dd as <-; injection Dd0 as <- <-; subst t; match goal with |- reads _ _ ?t => exact (reads_of strokes t t eq_refl) end.
  - eexists _, _. eexists _, _, _, _, _, _. cbn [In]. split; [do 10 right; left; reflexivity|]. split; [do 15 right; left; reflexivity|reflexivity].
Qed.
