(** Properties C22-C25 for a group, the frames in it, and all their handles. *)
From Coq Require Import NArith ZArith List.
From Coq Require Import Init.Byte Strings.Byte.
From Verif.Model Require Import Base ErrorCode Stream Frame FrameSys GroupSys.
From Verif.Spec Require Import GroupSpec.
From Verif.Proofs Require Import GroupP GroupTop.
Import ListNotations.
Open Scope N_scope.

(** * C23 *)
Theorem C23_frames_in_order : forall w ops c,
  let r := grun w gsys_new ops in
  let got := nth c (obtained (snd r)) [] in
  (length got <= length (appended (snd r)))%nat /\
  Forall2 (item_is (gs_heap (fst r))) got (firstn (length got) (appended (snd r))).
Proof. exact obtained_in_order. Qed.
Print Assumptions C23_frames_in_order.

(** Once told the end, all frames were obtained, and no more will be appended. *)
Theorem C23_told_end_saw_all : forall w ops tr1 e tr2 c,
  let tr := snd (grun w gsys_new ops) in
  tr = tr1 ++ e :: tr2 -> group_told_end e c ->
  length (nth c (obtained tr1) []) = length (appended tr).
Proof. exact group_end_all. Qed.
Print Assumptions C23_told_end_saw_all.

Theorem C23_next_result : forall w ops c s' x,
  let r := grun w gsys_new ops in
  gstep w (fst r) (GNext c) = (s', x) -> x <> GBad ->
  let got := nth c (obtained (snd r)) [] in
  (exists e, nth_error (appended (snd r)) (length got) = Some e /\ x = GGot (AOk (Some e))) \/
  (length got = length (appended (snd r)) /\
   x = GGot (match gverdict (snd r) with
             | Some Finished => AOk None
             | Some (Failed e) => AErr e
             | None => if gsys_alive (fst r) then APending else AErr Cancel
             end)).
Proof. exact group_next_result. Qed.
Print Assumptions C23_next_result.

(** Two frames; one reader uses [read_frame] and is interrupted, is cloned, then uses [next_frame]. *)
Definition c23_ops : list gop :=
  [GConsume 0; GRead 0] ++ create_frame 0 0 2 ++ [GRead 0; GCClone 0; GFrame 0 (FWrite 0 [x01; x02]); GRead 0] ++
  write_frame 0 1 [x03] ++ [GNext 1; GFrame 0 (FFinish 0); GRead 0; GRead 0; GRead 1; GFinish 0; GRead 0; GNext 1].
Example C23_example :
  let r := grun 64 gsys_new c23_ops in
  appended (snd r) = [(0, 0); (1, 0)]%nat /\
  obtained (snd r) = [[IWhole [x01; x02]; IWhole [x03]]; [ITake (0, 0)%nat; IWhole [x03]]] /\
  skipn 15 (outputs r) =
    [GFrameOut FUnit; GGotAll (AOk (Some [x01; x02])); GGotAll (AOk (Some [x03])); GGotAll (AOk (Some [x03])); GUnit;
     GGotAll (AOk None); GGot (AOk None)].
Proof. vm_compute. auto. Qed.

(** * C24 *)
(** A poll that did not complete (and may never be repeated) is invisible in everything that follows,
    to everyone. *)
Theorem C24_pending_poll_invisible : forall w s c o s1 x,
  o = GRead c \/ o = GNext c -> x = GGotAll APending \/ x = GGot APending ->
  gstep w s o = (s1, x) ->
  forall ops, outputs (grun w s1 ops) = outputs (grun w s ops).
Proof. exact pending_invisible. Qed.
Print Assumptions C24_pending_poll_invisible.

(** Once everything is written, reading to the end gives every remaining frame, whole, in order. *)
Theorem C24_reads_complete : forall w ops c,
  let r := grun w gsys_new ops in
  let left := skipn (length (nth c (obtained (snd r)) [])) (appended (snd r)) in
  get (gs_cons (fst r)) c <> None ->
  gverdict (snd r) = Some Finished -> Forall (fun e => frame_closed (gs_heap (fst r)) e = Some Finished) left ->
  outputs (grun w (fst r) (repeat (GRead c) (S (length left)))) =
  map (fun e => GGotAll (AOk (Some (payload (gs_heap (fst r)) e)))) left ++ [GGotAll (AOk None)].
Proof. exact reads_complete. Qed.
Print Assumptions C24_reads_complete.

(** The interrupted state is really different (the frame is held by the reader), yet indistinguishable. *)
Example C24_example :
  let s := fst (grun 64 gsys_new ([GConsume 0] ++ create_frame 0 0 2)) in
  snd (gstep 64 s (GRead 0)) = GGotAll APending /\ fst (gstep 64 s (GRead 0)) <> s /\
  let r := grun 64 gsys_new ([GConsume 0] ++ create_frame 0 0 1 ++ [GRead 0] ++ write_frame 0 1 [x02] ++
                             [GFrame 0 (FWrite 0 [x01]); GFrame 0 (FFinish 0); GFinish 0]) in
  get (gs_cons (fst r)) 0 <> None /\ gverdict (snd r) = Some Finished /\
  Forall (fun e => frame_closed (gs_heap (fst r)) e = Some Finished) (appended (snd r)) /\
  map (payload (gs_heap (fst r))) (appended (snd r)) = [[x01]; [x02]].
Proof. vm_compute. repeat split; repeat constructor; discriminate. Qed.

(** * C22 *)
Theorem C22_group_readers_released : forall w ops c s' x,
  let r := grun w gsys_new ops in
  gsys_alive (fst r) = false -> gstep w (fst r) (GNext c) = (s', x) -> x <> GGot APending.
Proof. exact group_released. Qed.
Print Assumptions C22_group_readers_released.

(** [read_frame] waits only for a frame that somebody can still write. *)
Theorem C22_group_read_frame_result : forall w ops c s' x,
  let r := grun w gsys_new ops in
  gstep w (fst r) (GRead c) = (s', x) -> x <> GBad ->
  let got := nth c (obtained (snd r)) [] in
  (exists e fs, nth_error (appended (snd r)) (length got) = Some e /\ nth_error (gs_heap (fst r)) (fst e) = Some fs /\
   x = GGotAll (match fs_closed (sy_state fs) with
             | Some Finished => AOk (Some (payload (gs_heap (fst r)) e))
             | Some (Failed e) => AErr e
             | None => if fsys_alive fs then APending else AErr Cancel
             end)) \/
  (length got = length (appended (snd r)) /\
   x = GGotAll (match gverdict (snd r) with
             | Some Finished => AOk None
             | Some (Failed e) => AErr e
             | None => if gsys_alive (fst r) then APending else AErr Cancel
             end)).
Proof. exact group_read_result. Qed.
Print Assumptions C22_group_read_frame_result.

Example C22_group_example :
  let s := fst (grun 64 gsys_new [GConsume 0; GUnused 0; GDrop 0; GUnusedDrop]) in
  gsys_alive s = false /\ snd (gstep 64 s (GNext 0)) = GGot (AErr Cancel).
Proof. auto. Qed.

(** * C25 *)
Theorem C25_group_append : forall w ops p f c s' x,
  let r := grun w gsys_new ops in
  gstep w (fst r) (GAppend p f c) = (s', x) -> x <> GBad ->
  match gverdict (snd r) with
  | None => exists i, x = GAppended i
  | Some _ => x = GPanic /\ gs_frames s' = gs_frames (fst r) /\ gs_closed s' = gs_closed (fst r) /\
      gs_cons s' = gs_cons (fst r) /\ gs_prods s' = gs_prods (fst r) /\ gs_guards s' = gs_guards (fst r) /\
      map sy_state (gs_heap s') = map sy_state (gs_heap (fst r))
  end.
Proof. exact append_result. Qed.
Print Assumptions C25_group_append.

Example C25_group_example :
  outputs (grun 64 gsys_new ([GClone 0; GFinish 0] ++ create_frame 1 0 1)) = [GUnit; GUnit; GUnit; GFrameOut FUnit; GPanic].
Proof. reflexivity. Qed.

(** * C71 *)
Theorem C71_group_end_overwritten_refuted : exists ops c e,
  let tr := snd (grun 64 gsys_new ops) in
  exists tr1 tr2, tr = tr1 ++ (GNext c, GGot (AOk None)) :: tr2 /\ In (GNext c, GGot (AErr e)) tr2.
Proof.
  exists [GConsume 0; GClone 0; GFinish 0; GNext 0; GAbort 1 Cancel; GNext 0], 0%nat, Cancel.
  exists [(GConsume 0, GUnit); (GClone 0, GUnit); (GFinish 0, GUnit)], [(GAbort 1 Cancel, GUnit); (GNext 0, GGot (AErr Cancel))].
  split; [reflexivity|]. right. left. reflexivity.
Qed.
Print Assumptions C71_group_end_overwritten_refuted.
