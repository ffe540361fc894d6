(** Properties C12-C18: byte streams and moving groups over them. *)
From Coq Require Import NArith ZArith List.
From Coq Require Import Init.Byte Strings.Byte.
From Verif.Model Require Import Base Coding Message ErrorCode Stream Frame Transfer.
From Verif.Spec Require Import CodingSpec MessageSpec StreamSpec TransferSpec.
From Verif.Proofs Require Import StreamP TransferP TransferTop RelayP.
Import ListNotations.
Open Scope N_scope.

(** * C12 *)
Theorem C12_chunk_independence : forall w script r1 r2, Forall (op_fits w) script ->
  content r1 = content r2 -> ends r1 = ends r2 -> no_empty_piece r1 -> no_empty_piece r2 ->
  observe w script r1 = observe w script r2 /\ Forall settled (observe w script r1).
Proof. exact chunk_independence. Qed.
Print Assumptions C12_chunk_independence.

Theorem C12_raw_reads_split : forall max r a r', reader_read max r = (a, r') ->
  match a with
  | AOk (Some c) => content r = c ++ content r' /\ len c <= max /\ ends r' = ends r
  | AOk None => content r = [] /\ ends r = Fin
  | AErr e => content r = [] /\ ends r = Reset
  | APending => content r = [] /\ ends r = Open
  | AFuel => False
  end.
Proof. exact raw_read_splits. Qed.
Print Assumptions C12_raw_reads_split.

(** A pending decode, resumed or restarted once more pieces have arrived, behaves as if they had been
    there from the start. *)
Theorem C12_decode_resumes : forall w k r x r' more e,
  reader_decode (decode_kind w k) r = (x, r') -> x = APending ->
  reader_decode (decode_kind w k) (Reader (rd_buf r') (Recv (rc_chunks (rd_stream r') ++ more) e)) =
  reader_decode (decode_kind w k) (Reader (rd_buf r) (Recv (rc_chunks (rd_stream r) ++ more) e)).
Proof. exact decode_resumes. Qed.
Print Assumptions C12_decode_resumes.

Definition c12_a : reader := Reader [] (Recv [[x02; x61]; [x62; x03]; [x01; x02; x03]] Fin).
Definition c12_b : reader := Reader [x02] (Recv [[x61; x62; x03; x01; x02]; [x03]] Fin).
Example C12_example :
  content c12_a = content c12_b /\ ends c12_a = ends c12_b /\ no_empty_piece c12_a /\ no_empty_piece c12_b /\
  observe 64 [RDecode KString; RMaybe KFrame; RFrame 3; RFinished] c12_a =
    [OMsg KString (AOk [x61; x62]); OMaybe KFrame (AOk (Some 3)); OFrame TDone [x01; x02; x03] (Some Finished);
     OFinished (AOk tt)].
Proof. repeat split; repeat constructor; discriminate. Qed.
(** The contract on empty pieces is needed: an empty read before the end is taken for data. *)
Example C12_empty_piece : fst (reader_finished (Reader [] (Recv [[]] Fin))) = AErr (Decode ExpectedEnd).
Proof. reflexivity. Qed.

(** * C13 *)
Theorem C13_finished_exact : forall r, no_empty_piece r ->
  let (a, r') := reader_finished r in
  (a = AOk tt <-> content r = [] /\ ends r = Fin) /\
  (a = AErr (Decode ExpectedEnd) <-> content r <> []) /\
  (a = AErr WebTransport <-> content r = [] /\ ends r = Reset) /\
  (a = APending <-> content r = [] /\ ends r = Open) /\
  content r' = content r.
Proof. exact finished_exact. Qed.
Print Assumptions C13_finished_exact.

Theorem C13_maybe_exact : forall w k r, no_empty_piece r ->
  let (a, r') := reader_decode_maybe (decode_kind w k) r in
  (a = AOk None <-> content r = [] /\ ends r = Fin) /\
  (forall m, a = AOk (Some m) <-> decode_kind w k (content r) = DOk m (content r') /\ content r <> []).
Proof. exact maybe_exact. Qed.
Print Assumptions C13_maybe_exact.

Example C13_example :
  fst (reader_finished (Reader [] (Recv [[x00]] Fin))) = AErr (Decode ExpectedEnd) /\
  fst (reader_decode_maybe (decode_kind 64 KFrame) (Reader [] (Recv [] Fin))) = AOk None /\
  no_empty_piece (Reader [] (Recv [[x00]] Fin)).
Proof. repeat split; repeat constructor; discriminate. Qed.

(** * C14 *)
Theorem C14_writes_exact : forall l s total, stands_for l total ->
  let (a, s') := write_script l s in
  exists p q, total = p ++ q /\ sd_sent s' = sd_sent s ++ p /\
    (a = Val (AOk tt) -> q = []) /\ a <> Panic /\ a <> Val AFuel /\
    (lively (sd_sched s) -> (length total <= length (sd_sched s))%nat -> a = Val (AOk tt)).
Proof. exact write_script_spec. Qed.
Print Assumptions C14_writes_exact.

Example C14_example :
  stands_for [WMsg KFrame 3; WRaw [x01; x02; x03]] [x03; x01; x02; x03] /\
  write_script [WMsg KFrame 3; WRaw [x01; x02; x03]] (Send [] [Acc 1; Acc 2; WFail; Acc 9]) =
    (Val (AErr WebTransport), Send [x03; x01; x02] [Acc 9]) /\
  write_script [WMsg KFrame 3; WRaw [x01; x02; x03]] (Send [] [Acc 1; Acc 2; Acc 0; Acc 9]) =
    (Val (AOk tt), Send [x03; x01; x02; x03] []).
Proof.
  split; [|split; reflexivity]. exists [x03], [x01; x02; x03]. split; [reflexivity|]. split; [|reflexivity].
  exists [x01; x02; x03], []. repeat split.
Qed.

(** * C15 *)
Theorem C15_group_intact : forall w canc hdr v sched s r,
  header_ok hdr -> Forall honest_frame (gv_frames v) -> Forall (sizes_fit w) (gv_frames v) ->
  serve_group hdr v (Send [] sched) = (SFinished, s) ->
  content r = sd_sent s -> ends r = Fin -> no_empty_piece r ->
  exists g, recv_stream w canc r = Arrived hdr TDone g /\ rg_closed g = Some Finished /\
    frames_of g = map whole (gv_frames v).
Proof. exact group_intact. Qed.
Print Assumptions C15_group_intact.

(** Serving a finished group does complete, given enough writes that make progress. *)
Theorem C15_serving_completes : forall hdr v, header_ok hdr -> finished_view v ->
  Forall (fun f => fv_size f < 2 ^ 62) (gv_frames v) ->
  exists total, forall sched, lively sched -> (total <= length sched)%nat ->
    exists s, serve_group hdr v (Send [] sched) = (SFinished, s).
Proof. exact serve_completes. Qed.
Print Assumptions C15_serving_completes.

Definition c15_view : group_view :=
  GroupView [FrameView 3 [[x61]; []; [x62; x63]] (AOk tt); FrameView 0 [] (AOk tt)] (AOk tt).
Example C15_example : header_ok (GroupHeader 1 7) /\ Forall honest_frame (gv_frames c15_view) /\
  Forall (sizes_fit 64) (gv_frames c15_view) /\
  serve_group (GroupHeader 1 7) c15_view (Send [] (repeat (Acc 2) 10)) =
    (SFinished, Send [x00; x01; x07; x03; x61; x62; x63; x00] (repeat (Acc 2) 4)) /\
  recv_stream 64 false (Reader [] (Recv [[x00; x01; x07; x03; x61]; [x62]; [x63; x00]] Fin)) =
    Arrived (GroupHeader 1 7) TDone
      (RGroup [(3, FrameState [[x61]; [x62]; [x63]] (Some Finished)); (0, FrameState [] (Some Finished))]
              (Some Finished)).
Proof. repeat split; repeat constructor; vm_compute; discriminate. Qed.

(** * C16 *)
Theorem C16_group_cut : forall w canc hdr v sched sv s r,
  header_ok hdr -> Forall honest_frame (gv_frames v) -> Forall (sizes_fit w) (gv_frames v) ->
  serve_group hdr v (Send [] sched) = (sv, s) ->
  prefix (content r) (sd_sent s) -> no_empty_piece r ->
  match recv_stream w canc r with
  | NoGroup a => a = match ends r with Fin => AErr (Decode Short) | Reset => AErr WebTransport | Open => APending end
  | Arrived h t g =>
      h = hdr /\ arrived_from (gv_frames v) (frames_of g) /\
      (rg_closed g = Some Finished <-> t = TDone) /\
      (t = TDone -> ends r = Fin /\ on_boundary hdr (gv_frames v) (content r) /\
                    Forall (fun f => snd f = Some Finished) (frames_of g)) /\
      (t <> TDone -> rg_closed g <> None \/ (ends r = Open /\ canc = false)) /\
      t <> TPanic /\ t <> TFuel
  end.
Proof. exact group_cut. Qed.
Print Assumptions C16_group_cut.

(** With a transport that reports a clean end only when the sender finished, a copy marked finished
    is a full copy of a finished group. *)
Theorem C16_finished_means_full : forall w canc hdr v sched sv s r t g,
  header_ok hdr -> Forall honest_frame (gv_frames v) -> Forall (sizes_fit w) (gv_frames v) ->
  serve_group hdr v (Send [] sched) = (sv, s) -> delivered sv s r ->
  recv_stream w canc r = Arrived hdr t g -> rg_closed g = Some Finished ->
  finished_view v /\ frames_of g = map whole (gv_frames v).
Proof. exact group_finished_full. Qed.
Print Assumptions C16_finished_means_full.

Example C16_example :
  recv_stream 64 false (Reader [] (Recv [[x00; x01; x07; x03; x61]; [x62]] Reset)) =
    Arrived (GroupHeader 1 7) (TFailed Cancel)
      (RGroup [(3, FrameState [[x61]; [x62]] (Some (Failed WebTransport)))] (Some (Failed Cancel))) /\
  recv_stream 64 false (Reader [] (Recv [[x00; x01]; [x07]; [x03; x61; x62; x63; x80]] Fin)) =
    Arrived (GroupHeader 1 7) (TFailed (Decode Short))
      (RGroup [(3, FrameState [[x61; x62; x63]] (Some Finished))] (Some (Failed (Decode Short)))).
Proof. split; reflexivity. Qed.

(** * C17 *)
Theorem C17_relay_chain : forall w g g', 62 <= w -> sound_group w g -> finished_group g -> full_hops w g g' ->
  frames_of g' = frames_of g /\ finished_group g' /\ sound_group w g'.
Proof. exact full_hops_same. Qed.
Print Assumptions C17_relay_chain.

(** Undisturbed hops exist for every finished group and every slicing. *)
Theorem C17_relay_hop_exists : forall w g hdr, sound_group w g -> finished_group g -> header_ok hdr ->
  exists total, forall sched, lively sched -> (total <= length sched)%nat ->
  exists s, serve_group hdr (view_of false g) (Send [] sched) = (SFinished, s) /\
  forall r, content r = sd_sent s -> ends r = Fin -> no_empty_piece r ->
  exists g', full_hop w g g' /\ recv_stream w false r = Arrived hdr TDone g'.
Proof. exact full_hop_exists. Qed.
Print Assumptions C17_relay_hop_exists.

(** Disturbed hops: still a copy of complete leading frames, and finished only if everything is there. *)
Theorem C17_relay_chain_cut : forall w g g', 62 <= w -> sound_group w g -> hops w g g' ->
  copy (frames_of g) (frames_of g') /\ sound_group w g' /\
  (rg_closed g' = Some Finished -> finished_group g /\ frames_of g' = frames_of g).
Proof. exact hops_copy. Qed.
Print Assumptions C17_relay_chain_cut.

Definition c17_group : rgroup :=
  RGroup [(3, FrameState [[x61]; [x62]; [x63]] (Some Finished)); (0, FrameState [] (Some Finished))] (Some Finished).
Example C17_example : sound_group 64 c17_group /\ finished_group c17_group /\
  full_hops 64 c17_group (RGroup [(3, FrameState [[x61; x62; x63]] (Some Finished)); (0, FrameState [] (Some Finished))]
                                 (Some Finished)).
Proof.
  split; [repeat constructor; vm_compute; discriminate|]. split; [repeat constructor|].
  eapply full_hops_more; [apply full_hops_none|].
  exists (GroupHeader 1 7), false, (repeat (Acc 2) 10), (Send [x00; x01; x07; x03; x61; x62; x63; x00] (repeat (Acc 2) 3)),
    (Reader [] (Recv [[x00; x01; x07]; [x03; x61; x62; x63]; [x00]] Fin)), false, TDone.
  repeat split; repeat constructor; discriminate.
Qed.

(** * C18 *)
Theorem C18_hostile_stream : forall w canc r, 62 <= w -> no_empty_piece r ->
  match recv_stream w canc r with
  | NoGroup a => a <> AFuel
  | Arrived h t g => t <> TPanic /\ t <> TFuel /\ sound_group w g /\
      (t = TDone -> ends r = Fin) /\ (rg_closed g = Some Finished <-> t = TDone) /\
      (t = TPending -> ends r = Open) /\ header_ok h
  end.
Proof. exact hostile_stream. Qed.
Print Assumptions C18_hostile_stream.

Example C18_example :
  recv_stream 64 false (Reader [] (Recv [[x00; xff; xff; xff; xff; xff; xff; xff; xff; x05; xff]; [xff; xff; xff; xff; xff; xff; xff; x01]] Fin)) =
  Arrived (GroupHeader (2 ^ 62 - 1) 5) (TFailed WrongSize)
    (RGroup [(2 ^ 62 - 1, FrameState [[x01]] (Some (Failed WrongSize)))] (Some (Failed WrongSize))).
Proof. vm_compute. reflexivity. Qed.

(** On a 32-bit target (the browser build) a declared frame size of 2^32 makes the receive loop spin
    for ever without reading anything and without yielding. *)
Theorem C18_livelock_32_refuted : exists r, ends r = Fin /\ no_empty_piece r /\
  forall fuel, let '(t, _, r') := run_frame 32 fuel (2 ^ 32) (2 ^ 32) 0 frame_new r in t = TFuel /\ r' = r.
Proof.
  exact (ex_intro _ (Reader [x00] (Recv [] Fin)) (conj eq_refl (conj (Forall_nil _)
    (fun fuel => frame_livelock fuel frame_new x00 [] [] Fin eq_refl)))).
Qed.
Print Assumptions C18_livelock_32_refuted.
