(** C120-C122: location tracks. *)
From Coq Require Import NArith List Lia Bool Sorted.
From Coq Require Import Init.Byte Strings.Byte.
From Verif.Model Require Import Base ErrorCode FrameSys Location.
From Verif.Spec Require Import LocationSpec.
From Verif.Proofs Require LocationP.
Import ListNotations.
Open Scope nat_scope.

(** * C120: readers are told positions that were published, each at most once, in the order of publication *)

Theorem C120_readers : forall w m ops s tr r, lrun w m lsys_new ops = (s, tr) -> bounded w tr -> positions tr ->
  exists js, StronglySorted lt js /\
    Forall2 (fun j x => exists c, nth_error (published tr) j = Some c /\ told c x) js (answers tr r).
Proof. exact LocationP.answers_run. Qed.
Print Assumptions C120_readers.

(** What a reader is told about a group is determined by the group. *)
Theorem C120_told : forall c x y, told c x -> told c y -> x = y.
Proof. exact LocationP.told_unique. Qed.
Print Assumptions C120_told.

(** No call of a reader panics, and one that found a group does not fail. *)
Theorem C120_total : forall w m ops s tr r, lrun w m lsys_new ops = (s, tr) -> bounded w tr -> positions tr ->
  (forall x, In (LTrack r, x) tr -> answer x = false /\ x <> LPanic) /\
  (forall x, In (LFrame r, x) tr -> x <> LPanic /\ x <> LEnd /\ forall e, x <> LErr e).
Proof. exact LocationP.readers_ok. Qed.
Print Assumptions C120_total.

(** The bytes: every position is written so that it reads back, and only twelve bytes are a position. *)
Theorem C120_wire : (forall x, is_place x -> on_wire x (place_encode x)) /\
  (forall x b, place_decode b = Some x <-> on_wire x b).
Proof. split; [exact LocationP.encode_wire|]. intros x b. symmetry. apply LocationP.on_wire_decode. Qed.
Print Assumptions C120_wire.

Definition at_ (n : N) : place := Place n (n + 1) (n + 2).
Definition update (p : nat) (x : place) : list lop := LUpdate p x :: repeat (LStep p) 7.

(** Executions are computed before anything is said about them. *)
Ltac none := repeat intro; match goal with H : In _ _ |- _ => repeat (destruct H as [H|H]; [discriminate H|]); destruct H end.
Ltac places := let p := fresh in let x := fresh in let H := fresh in
  intros p x H; repeat (destruct H as [H|H]; [first [discriminate H|injection H as _ <-; repeat split]|]); destruct H.
Ltac bounds := split; [reflexivity|split; [let H := fresh in intros ? ? H; repeat (destruct H as [H|H]; [discriminate H|]); destruct H|reflexivity]].

(** A reader misses the position published while it was not looking; what it is told is in order. *)
Definition run0 : list lop := LConsume 0 :: update 0 (at_ 1) ++ [LTrack 0; LFrame 0] ++ update 0 (at_ 5) ++ update 0 (at_ 9) ++ [LTrack 0; LFrame 0].
Example C120_example :
  let (s, tr) := lrun 64 Debug lsys_new run0 in
  answers tr 0 = [LGot (at_ 1); LGot (at_ 9)] /\ published tr = [Pos (at_ 1); Pos (at_ 5); Pos (at_ 9)] /\ bounded 64 tr /\ positions tr.
Proof.
  destruct (lrun 64 Debug lsys_new run0) as [s tr] eqn:E. vm_compute in E. injection E as <- <-.
  split; [reflexivity|]. split; [reflexivity|]. split; [bounds|places].
Qed.
(** Something that is no position, and an empty group, through the public track *)
Example C120_example_raw :
  let (s, tr) := lrun 64 Debug lsys_new
    (LConsume 0 :: LRaw 0 (Some ["a"; "b"]%byte) :: repeat (LStep 0) 7 ++ [LTrack 0; LFrame 0] ++
     LRaw 0 None :: repeat (LStep 0) 4 ++ [LTrack 0; LFrame 0]) in
  answers tr 0 = [LInvalidFrame; LEmptyGroup].
Proof. vm_compute. reflexivity. Qed.

(** * C121: latest() is the newest position that readers see *)
Definition C121_latest : Prop := forall w m ops s tr p o, lrun w m lsys_new ops = (s, tr) -> bounded w tr -> positions tr -> no_raw tr ->
  calls tr = [] -> lstep w m s (LLatest p) = (s, LPos o) -> option_map Pos o = newest tr.

(** True if no call of [update] starts while another is on its way, on any clone; then a reader made now is told it. *)
Theorem C121_latest_partial : forall w m ops s tr p o, lrun w m lsys_new ops = (s, tr) -> bounded w tr -> positions tr ->
  one_at_a_time tr -> no_raw tr -> calls tr = [] -> lstep w m s (LLatest p) = (s, LPos o) ->
  option_map Pos o = newest tr /\
  (unfinished tr -> forall x, o = Some x ->
   exists s', lrun w m s [LConsume p; LTrack (readers tr); LFrame (readers tr)] =
     (s', [(LConsume p, LUnit); (LTrack (readers tr), LGroup); (LFrame (readers tr), LGot x)])).
Proof. exact LocationP.latest_run. Qed.
Print Assumptions C121_latest_partial.

(** Two clones: the position that was overtaken is stored last. *)
Definition race : list lop :=
  LClone 0 :: LUpdate 0 (at_ 1) :: repeat (LStep 0) 6 ++ update 1 (at_ 5) ++ [LStep 0].
Theorem C121_latest_refuted : exists w m ops s tr p o, lrun w m lsys_new ops = (s, tr) /\ bounded w tr /\ positions tr /\ no_raw tr /\
  calls tr = [] /\ lstep w m s (LLatest p) = (s, LPos o) /\ option_map Pos o <> newest tr.
Proof.
  destruct (lrun 64 Debug lsys_new race) as [s tr] eqn:E. exists 64%N, Debug, race, s, tr, 1, (Some (at_ 1)). split; [exact E|].
  vm_compute in E. injection E as <- <-. split; [bounds|]. split; [places|]. split; [none|].
  split; [reflexivity|]. split; [reflexivity|discriminate].
Qed.
Print Assumptions C121_latest_refuted.

(** [update] returns, unless the track was finished: true of one call at a time *)
Definition C121_update : Prop := forall w m ops s tr p, lrun w m lsys_new ops = (s, tr) -> bounded w tr -> positions tr ->
  no_raw tr -> unfinished tr -> ~ In (LStep p, LPanic) tr.
Theorem C121_update_partial : forall w m ops s tr, lrun w m lsys_new ops = (s, tr) -> bounded w tr -> positions tr ->
  one_at_a_time tr -> no_raw tr -> unfinished tr -> forall p, ~ In (LStep p, LPanic) tr.
Proof. intros w m ops s tr E B P O N. apply (LocationP.one_run w m ops s tr E B P O N). Qed.
Print Assumptions C121_update_partial.

(** Two clones that update at the same time: one panics, and its position is never published. *)
Theorem C121_update_refuted : exists w m ops s tr p, lrun w m lsys_new ops = (s, tr) /\ bounded w tr /\ positions tr /\ no_raw tr /\
  unfinished tr /\ In (LStep p, LPanic) tr.
Proof.
  set (ops := [LClone 0; LUpdate 0 (at_ 1); LUpdate 1 (at_ 5); LStep 0; LStep 1; LStep 0; LStep 1]).
  destruct (lrun 64 Debug lsys_new ops) as [s tr] eqn:E. exists 64%N, Debug, ops, s, tr, 1. split; [exact E|].
  vm_compute in E. injection E as <- <-. split; [bounds|]. split; [places|]. split; [none|]. split; [none|].
  do 6 right. left. reflexivity.
Qed.
Print Assumptions C121_update_refuted.

Example C121_example :
  let (s, tr) := lrun 64 Debug lsys_new (LClone 0 :: update 0 (at_ 1) ++ update 1 (at_ 5)) in
  calls tr = [] /\ newest tr = Some (Pos (at_ 5)) /\ snd (lstep 64 Debug s (LLatest 0)) = LPos (Some (at_ 5)) /\ one_at_a_time tr.
Proof.
  destruct (lrun 64 Debug lsys_new _) as [s tr] eqn:E. vm_compute in E. injection E as <- <-.
  split; [reflexivity|]. split; [reflexivity|]. split; [reflexivity|].
  intros b p x a H. do 17 (destruct b as [|e b]; [first [discriminate H|reflexivity]|injection H as <- H]).
  destruct b as [|? [|]]; discriminate H.
Qed.

(** * C122: a reader that asks is told the newest position, if it was not told it yet *)
Definition C122_newest : Prop := forall w m ops s tr r c, lrun w m lsys_new ops = (s, tr) -> bounded w tr -> positions tr -> unfinished tr ->
  r < readers tr -> found tr r = false -> newest tr = Some c ->
  (exists l x, answers tr r = l ++ [x] /\ told c x) \/
  exists x s', lrun w m s [LTrack r; LFrame r] = (s', [(LTrack r, LGroup); (LFrame r, x)]) /\ (told c x \/ x = LPend /\ calls tr <> []).

(** True of a reader that never dropped a call of [next] that was waiting for the content of a group. *)
Theorem C122_newest_partial : forall w m ops s tr r c, lrun w m lsys_new ops = (s, tr) -> bounded w tr -> positions tr -> unfinished tr ->
  r < readers tr -> found tr r = false -> ~ cancelled_late tr r -> newest tr = Some c ->
  (exists l x, answers tr r = l ++ [x] /\ told c x) \/
  exists x s', lrun w m s [LTrack r; LFrame r] = (s', [(LTrack r, LGroup); (LFrame r, x)]) /\ (told c x \/ x = LPend /\ calls tr <> []).
Proof. exact LocationP.fresh_run. Qed.
Print Assumptions C122_newest_partial.

(** The position of the group that a dropped [next] had found is lost to the reader. *)
Definition drop : list lop :=
  LConsume 0 :: LUpdate 0 (at_ 1) :: repeat (LStep 0) 2 ++ [LTrack 0; LFrame 0; LCancel 0] ++ repeat (LStep 0) 5.
Theorem C122_newest_refuted : exists w m ops s tr r c, lrun w m lsys_new ops = (s, tr) /\ bounded w tr /\ positions tr /\ unfinished tr /\
  r < readers tr /\ found tr r = false /\ newest tr = Some c /\ calls tr = [] /\
  answers tr r = [] /\ exists s', lstep w m s (LTrack r) = (s', LPend).
Proof.
  destruct (lrun 64 Debug lsys_new drop) as [s tr] eqn:E. exists 64%N, Debug, drop, s, tr, 0, (Pos (at_ 1)). split; [exact E|].
  vm_compute in E. injection E as <- <-. split; [bounds|]. split; [places|]. split; [none|].
  split; [apply le_n|]. repeat (split; [reflexivity|]). eexists. reflexivity.
Qed.
Print Assumptions C122_newest_refuted.

(** Nor is it told a position that was published before the track was finished: [next] gives [None] first. *)
Theorem C122_end_refuted : exists w m ops s tr r c, lrun w m lsys_new ops = (s, tr) /\ bounded w tr /\ positions tr /\
  r < readers tr /\ (forall x, ~ In (LCancel r, x) tr) /\ newest tr = Some c /\ calls tr = [] /\ answers tr r = [] /\ In (LTrack r, LEnd) tr.
Proof.
  set (ops := LConsume 0 :: update 0 (at_ 1) ++ [LFinish 0; LTrack 0]).
  destruct (lrun 64 Debug lsys_new ops) as [s tr] eqn:E. exists 64%N, Debug, ops, s, tr, 0, (Pos (at_ 1)). split; [exact E|].
  vm_compute in E. injection E as <- <-. split; [bounds|]. split; [places|]. split; [apply le_n|]. split; [none|].
  repeat (split; [reflexivity|]). do 10 right. left. reflexivity.
Qed.
Print Assumptions C122_end_refuted.

(** Dropping [next] earlier loses nothing. *)
Example C122_example :
  let (s, tr) := lrun 64 Debug lsys_new (LConsume 0 :: LTrack 0 :: LCancel 0 :: update 0 (at_ 1)) in
  unfinished tr /\ found tr 0 = false /\ newest tr = Some (Pos (at_ 1)) /\ 0 < readers tr /\
  map snd (snd (lrun 64 Debug s [LTrack 0; LFrame 0])) = [LGroup; LGot (at_ 1)].
Proof.
  destruct (lrun 64 Debug lsys_new _) as [s tr] eqn:E. vm_compute in E. injection E as <- <-.
  split; [none|]. repeat (split; [first [reflexivity|apply le_n]|]). vm_compute. reflexivity.
Qed.
