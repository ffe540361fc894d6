(** Properties C19-C22, C25, C71 for a single frame and all its handles. *)
From Coq Require Import NArith ZArith List.
From Coq Require Import Init.Byte Strings.Byte.
From Verif.Model Require Import Base ErrorCode Stream Frame FrameSys.
From Verif.Spec Require Import TransferSpec FrameSpec.
From Verif.Proofs Require Import FrameP.
Import ListNotations.
Open Scope N_scope.

(** * C19 *)
Theorem C19_readers_see_prefix : forall w size ops c,
  let tr := snd (frun w (fsys_new size) ops) in
  prefix (nth c (observed tr) []) (written tr).
Proof. exact readers_prefix. Qed.
Print Assumptions C19_readers_see_prefix.

(** Once told the end, at any later time, nothing else has been or will be written. *)
Theorem C19_told_end_saw_all : forall w size ops tr1 e tr2 c,
  snd (frun w (fsys_new size) ops) = tr1 ++ e :: tr2 -> told_end e c ->
  nth c (observed (tr1 ++ [e])) [] = written (snd (frun w (fsys_new size) ops)).
Proof. exact told_end_all. Qed.
Print Assumptions C19_told_end_saw_all.

(** A reader that is behind gets the next bytes; one that has caught up gets the verdict. *)
Theorem C19_read_result : forall w size ops c s' x,
  let tr := snd (frun w (fsys_new size) ops) in
  fstep w (fst (frun w (fsys_new size) ops)) (FRead c) = (s', x) -> x <> FBad ->
  let seen := nth c (observed tr) [] in
  (exists b, x = FGot (AOk (Some b)) /\ prefix (seen ++ b) (written tr)) \/
  (seen = written tr /\
   x = FGot (match verdict tr with None => if (0 <? senders tr)%Z then APending else AErr Cancel | v => at_end v end)).
Proof. exact read_result. Qed.
Print Assumptions C19_read_result.

Theorem C19_read_all_result : forall w size ops c s' x,
  let tr := snd (frun w (fsys_new size) ops) in
  fstep w (fst (frun w (fsys_new size) ops)) (FReadAll c) = (s', x) -> x <> FBad ->
  exists rest, written tr = nth c (observed tr) [] ++ rest /\
  x = FAll (match verdict tr with
            | Some Finished => AOk rest
            | Some (Failed e) => AErr e
            | None => if (0 <? senders tr)%Z then APending else AErr Cancel
            end).
Proof. exact read_all_result. Qed.
Print Assumptions C19_read_all_result.

(** Two readers, one cloned half way, one using [read], one [read_all]. *)
Definition c19_ops : list fop :=
  [FConsume 0; FRead 0; FWrite 0 [x01; x02]; FRead 0; FCClone 0; FWrite 0 [x03]; FReadAll 1; FFinish 0;
   FReadAll 1; FRead 0; FRead 0].
Example C19_example :
  let tr := snd (frun 64 (fsys_new 3) c19_ops) in
  map snd tr = [FUnit; FGot APending; FUnit; FGot (AOk (Some [x01; x02])); FUnit; FUnit; FAll APending; FUnit;
                FAll (AOk [x03]); FGot (AOk (Some [x03])); FGot (AOk None)] /\
  observed tr = [[x01; x02; x03]; [x01; x02; x03]] /\ written tr = [x01; x02; x03].
Proof. vm_compute. auto. Qed.

(** * C20 *)
Theorem C20_complete_means_exact : forall w size ops, never_cloned ops ->
  verdict (snd (frun w (fsys_new size) ops)) = Some Finished ->
  len (written (snd (frun w (fsys_new size) ops))) = size mod 2 ^ w.
Proof. exact single_complete. Qed.
Print Assumptions C20_complete_means_exact.

Theorem C20_never_exceeds : forall w size ops, never_cloned ops ->
  len (written (snd (frun w (fsys_new size) ops))) <= size mod 2 ^ w.
Proof. exact single_bound. Qed.
Print Assumptions C20_never_exceeds.

Theorem C20_write_accepted_iff : forall w size ops p c s' x, never_cloned ops ->
  let tr := snd (frun w (fsys_new size) ops) in
  no_panic tr -> fstep w (fst (frun w (fsys_new size) ops)) (FWrite p c) = (s', x) -> x <> FBad ->
  x = if len (written tr) + len c <=? size mod 2 ^ w then FUnit else FPanic.
Proof. exact single_write. Qed.
Print Assumptions C20_write_accepted_iff.

Theorem C20_finish_accepted_iff : forall w size ops p s' x, never_cloned ops ->
  let tr := snd (frun w (fsys_new size) ops) in
  no_panic tr -> fstep w (fst (frun w (fsys_new size) ops)) (FFinish p) = (s', x) -> x <> FBad ->
  x = if len (written tr) =? size mod 2 ^ w then FUnit else FPanic.
Proof. exact single_finish. Qed.
Print Assumptions C20_finish_accepted_iff.

Example C20_example : never_cloned c19_ops /\ no_panic (snd (frun 64 (fsys_new 3) c19_ops)) /\
  verdict (snd (frun 64 (fsys_new 3) c19_ops)) = Some Finished /\ 3 mod 2 ^ 64 = 3 /\
  map snd (snd (frun 64 (fsys_new 2) [FWrite 0 [x01]; FWrite 0 [x02; x03]; FFinish 0])) = [FUnit; FPanic; FPanic] /\
  map snd (snd (frun 64 (fsys_new 2) [FWrite 0 [x01]; FFinish 0])) = [FUnit; FPanic].
Proof. vm_compute. repeat split; repeat constructor; discriminate. Qed.

(** * C21 *)
(** False: each clone has its own count. *)
Theorem C21_clones_exceed_size_refuted : exists size ops c b,
  let tr := snd (frun 64 (fsys_new size) ops) in
  In (FReadAll c, FAll (AOk b)) tr /\ no_panic tr /\ size < len b.
Proof.
  exists 1, [FConsume 0; FClone 0; FWrite 0 [x01]; FWrite 1 [x02]; FFinish 0; FReadAll 0], 0%nat, [x01; x02].
  cbn. split; [auto 10|]. split; [|reflexivity]. repeat constructor; discriminate.
Qed.
Print Assumptions C21_clones_exceed_size_refuted.

(** What does hold: each clone may write the size once more. *)
Theorem C21_clones_bound_partial : forall w size ops,
  len (written (snd (frun w (fsys_new size) ops))) <= (size mod 2 ^ w) * (1 + clones ops).
Proof. exact clones_bound. Qed.
Print Assumptions C21_clones_bound_partial.

(** Exactly: a writer counts what it tried to write itself, and before it was cloned what its original had
    tried.  A write goes through while that count stays within the size and the frame is not closed. *)
Theorem C21_write_exact : forall w size ops p c s' x,
  let tr := snd (frun w (fsys_new size) ops) in
  fstep w (fst (frun w (fsys_new size) ops)) (FWrite p c) = (s', x) -> x <> FBad ->
  (x = FUnit /\ nth p (attempted tr) 0 + len c <= size mod 2 ^ w /\ verdict tr = None) \/
  (x = FPanic /\ (size mod 2 ^ w < nth p (attempted tr) 0 + len c \/ verdict tr <> None)).
Proof. exact each_write. Qed.
Print Assumptions C21_write_exact.

(** A writer can finish the frame once that count is the size, whatever the others wrote. *)
Theorem C21_finish_exact : forall w size ops p s' x,
  let tr := snd (frun w (fsys_new size) ops) in
  fstep w (fst (frun w (fsys_new size) ops)) (FFinish p) = (s', x) -> x <> FBad ->
  x = if nth p (attempted tr) 0 =? size mod 2 ^ w then FUnit else FPanic.
Proof. exact each_finish. Qed.
Print Assumptions C21_finish_exact.

Example C21_exact_example :
  attempted (snd (frun 64 (fsys_new 3) [FWrite 0 [x01]; FClone 0; FWrite 0 [x02; x02]; FWrite 1 [x03]])) = [3; 2].
Proof. reflexivity. Qed.

Example C21_example : clones [FConsume 0; FClone 0; FWrite 0 [x01]; FWrite 1 [x02]; FFinish 0; FReadAll 0] = 1.
Proof. reflexivity. Qed.

(** * C22 *)
Theorem C22_frame_readers_released : forall w size ops c s' x,
  let tr := snd (frun w (fsys_new size) ops) in
  senders tr = 0%Z ->
  fstep w (fst (frun w (fsys_new size) ops)) (FRead c) = (s', x) -> x <> FBad ->
  let seen := nth c (observed tr) [] in
  (exists b, x = FGot (AOk (Some b)) /\ prefix (seen ++ b) (written tr)) \/
  (seen = written tr /\ x = FGot (at_end (verdict tr))).
Proof. exact frame_released. Qed.
Print Assumptions C22_frame_readers_released.

Theorem C22_frame_read_all_released : forall w size ops c s' x,
  let tr := snd (frun w (fsys_new size) ops) in
  senders tr = 0%Z ->
  fstep w (fst (frun w (fsys_new size) ops)) (FReadAll c) = (s', x) -> x <> FBad ->
  exists rest, written tr = nth c (observed tr) [] ++ rest /\
  x = FAll (match at_end (verdict tr) with AOk _ => AOk rest | AErr e => AErr e | APending => APending | AFuel => AFuel end).
Proof. exact frame_all_released. Qed.
Print Assumptions C22_frame_read_all_released.

Example C22_frame_example :
  let tr := snd (frun 64 (fsys_new 3) [FConsume 0; FWrite 0 [x01]; FRead 0; FUnused 0; FDrop 0]) in
  senders tr = 1%Z /\ senders (snd (frun 64 (fsys_new 3) [FConsume 0; FWrite 0 [x01]; FRead 0; FUnused 0; FDrop 0; FUnusedDrop])) = 0%Z.
Proof. vm_compute. auto. Qed.

(** * C25 *)
Theorem C25_frame_closed_write_panics : forall w size ops p c s' x,
  let s := fst (frun w (fsys_new size) ops) in
  verdict (snd (frun w (fsys_new size) ops)) <> None ->
  fstep w s (FWrite p c) = (s', x) -> x <> FBad ->
  x = FPanic /\ sy_state s' = sy_state s /\ sy_cons s' = sy_cons s /\ sy_guards s' = sy_guards s.
Proof. exact write_closed. Qed.
Print Assumptions C25_frame_closed_write_panics.

Example C25_frame_example :
  map snd (snd (frun 64 (fsys_new 1) [FClone 0; FAbort 0 Cancel; FWrite 1 [x01]])) = [FUnit; FUnit; FPanic].
Proof. reflexivity. Qed.

(** * C71 *)
(** A clone of the producer can abort a finished frame: a reader told the clean end is then told an
    error. *)
Theorem C71_frame_end_overwritten_refuted : exists size ops c e,
  let tr := snd (frun 64 (fsys_new size) ops) in
  no_panic tr /\ exists tr1 tr2, tr = tr1 ++ (FRead c, FGot (AOk None)) :: tr2 /\ In (FRead c, FGot (AErr e)) tr2.
Proof.
  exists 0, [FConsume 0; FClone 0; FFinish 0; FRead 0; FAbort 1 Cancel; FRead 0], 0%nat, Cancel.
  split. { repeat constructor; discriminate. }
  exists [(FConsume 0, FUnit); (FClone 0, FUnit); (FFinish 0, FUnit)], [(FAbort 1 Cancel, FUnit); (FRead 0, FGot (AErr Cancel))].
  split; [reflexivity|]. right. left. reflexivity.
Qed.
Print Assumptions C71_frame_end_overwritten_refuted.

(** With a single writer the verdict never changes once given. *)
Theorem C71_frame_end_final_partial : forall w size ops more v, never_cloned (ops ++ more) ->
  verdict (snd (frun w (fsys_new size) ops)) = Some v ->
  verdict (snd (frun w (fsys_new size) (ops ++ more))) = Some v.
Proof. exact verdict_final. Qed.
Print Assumptions C71_frame_end_final_partial.
