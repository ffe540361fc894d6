(** Properties C127-C129: one track over any tree of sessions. *)
From Coq Require Import NArith ZArith List Bool Lia.
From Coq Require Import Init.Byte Strings.Byte.
From Verif.Model Require Import Base Coding Message ErrorCode Stream Frame FrameSys TrackSys Publisher Transfer Net.
From Verif.Spec Require Import TrackSpec TransferSpec NetSpec.
From Verif.Proofs Require Import NetTopP NetRestP.
Import ListNotations.
Open Scope nat_scope.

(** * C127 *)
(** Every group that reaches a copy of the track, over however many sessions, is a group of the
    application's track with the same number, and what is in it is a copy of what the application wrote:
    a beginning of it, and all of it once it is marked complete. *)
Theorem C127_copies : forall m w ops i g, (62 <= w)%N -> Forall modest ops -> 1 <= i ->
  let r := nrun m w net_new ops in
  In g (taken i (snd r)) ->
  exists g0 h0 h, In g0 (taken 0 (snd r)) /\ g_seq g0 = g_seq g /\ written (fst r) 0 (g_id g0) = Some h0 /\
    written (fst r) i (g_id g) = Some h /\ copy_of h0 h.
Proof. exact taken_copies. Qed.
Print Assumptions C127_copies.

(** Every reader of every copy is given groups of that copy, in increasing order. *)
Theorem C127_in_order : forall m w ops i c, (62 <= w)%N -> Forall modest ops ->
  let tr := snd (nrun m w net_new ops) in
  increasing (taken i tr) /\ increasing (given i c tr) /\ incl (given i c tr) (taken i tr).
Proof. exact in_order. Qed.
Print Assumptions C127_in_order.

(** Two sessions in a row.  The application's group 5 is finished; it reaches the second node in two
    pieces and the third one only in part. *)
Definition sched : list accept := repeat (Acc 100) 10.
Definition chain_ops : list nop :=
  [NOpen 0 0 7 0; NOpen 1 2 9 0; NUse 2 (TConsume 2); NGroup; NUse 0 (TInsert 0 (Group 5 0));
   NFill 0 (GFrame 2); NFill 0 (GWrite 0 [x61; x62]); NFill 0 (GDone 0); NFill 0 (GEnd Finished);
   NPoll 0; NArrive 0 0 false false sched (Reader [x00; x07; x05] (Recv [] Open));
   NPoll 1; NArrive 0 0 false false sched (Reader [x00; x07; x05; x02; x61] (Recv [[x62]] Fin));
   NArrive 1 0 true false sched (Reader [x00; x09; x05; x02; x61] (Recv [] Open));
   NUse 2 (TNext 0)].
Definition chain_run : net * list nevent := nrun Release 64 net_new chain_ops.
Example C127_example :
  Forall modest chain_ops /\ taken 2 (snd chain_run) = [Group 5 0] /\ given 2 0 (snd chain_run) = [Group 5 0] /\
  option_map frames_of (written (fst chain_run) 1 0) = Some [(2%N, [x61; x62], Some Finished)] /\
  option_map rg_closed (written (fst chain_run) 1 0) = Some (Some Finished) /\
  option_map frames_of (written (fst chain_run) 2 0) = Some [(2%N, [x61], None)].
Proof. split; [repeat constructor|]. vm_compute. repeat split. Qed.

(** * C128 *)
(** Once the network has come to rest, every copy has the application's newest group as its newest. *)
Theorem C128_converges : forall m w ops q i, (62 <= w)%N -> Forall modest ops ->
  let r := nrun m w net_new ops in
  at_rest m w (fst r) -> newest_is (taken 0 (snd r)) q -> i < length (nt_tracks (fst r)) -> newest_is (taken i (snd r)) q.
Proof. exact converges. Qed.
Print Assumptions C128_converges.

(** And every reader is then given it, or has been. *)
Theorem C128_readers : forall m w ops q i c a, (62 <= w)%N -> Forall modest ops -> 1 <= i ->
  let r := nrun m w net_new ops in
  at_rest m w (fst r) -> newest_is (taken 0 (snd r)) q ->
  no_did (snd (nstep m w (fst r) (NUse i (TNext c)))) = [(i, (TNext c, TGot a))] ->
  (exists g, a = AOk (Some g) /\ q = Some (g_seq g)) \/ (a = APending /\ newest_is (given i c (snd r)) q).
Proof. exact reader_converges. Qed.
Print Assumptions C128_readers.

Example C128_example :
  at_rest Release 64 (fst chain_run) /\ newest_is (taken 0 (snd chain_run)) (Some 5%N) /\ 2 < length (nt_tracks (fst chain_run)) /\
  no_did (snd (nstep Release 64 (fst chain_run) (NUse 2 (TNext 0)))) = [(2, (TNext 0, TGot APending))].
Proof.
  split; [|split; [|split]].
  - let x := eval vm_compute in (nt_links (fst chain_run)) in
      assert (L : nt_links (fst chain_run) = x) by (vm_compute; reflexivity).
    intros l ln E. rewrite L in E. destruct l as [|[|[|l]]]; [| |discriminate E|discriminate E].
    + vm_compute in E. injection E as <-. vm_compute. split; [reflexivity|]. split; [reflexivity|]. split; [reflexivity|].
      constructor; [|constructor]. split; [reflexivity|]. right. discriminate.
    + vm_compute in E. injection E as <-. vm_compute. split; [reflexivity|]. split; [reflexivity|]. split; [reflexivity|].
      constructor; [|constructor]. split; [reflexivity|]. right. discriminate.
  - exists (Group 5 0). split; [|reflexivity]. split; vm_compute; [auto|]. constructor; [discriminate|constructor].
  - vm_compute. lia.
  - vm_compute. reflexivity.
Qed.

(** The network can always come to rest: as long as the application's track is open and nothing has failed,
    publishers that are polled and streams that deliver are enough, whatever happened before and however
    long the chains of sessions are.  Nobody has to do anything else. *)
Theorem C128_rest : forall m w ops, (62 <= w)%N -> Forall modest ops ->
  let r := nrun m w net_new ops in
  root_open (fst r) -> Forall (small_number m) (taken 0 (snd r)) -> nothing_failed (fst r) ->
  exists more, Forall delivery more /\
    let r' := nrun m w net_new (ops ++ more) in at_rest m w (fst r') /\ taken 0 (snd r') = taken 0 (snd r).
Proof. exact rest_possible. Qed.
Print Assumptions C128_rest.

(** So everybody can always still get to the newest group. *)
Theorem C128_reachable : forall m w ops q, (62 <= w)%N -> Forall modest ops ->
  let r := nrun m w net_new ops in
  root_open (fst r) -> Forall (small_number m) (taken 0 (snd r)) -> nothing_failed (fst r) -> newest_is (taken 0 (snd r)) q ->
  exists more, Forall delivery more /\
    let r' := nrun m w net_new (ops ++ more) in
    forall i, i < length (nt_tracks (fst r')) -> newest_is (taken i (snd r')) q.
Proof. exact can_converge. Qed.
Print Assumptions C128_reachable.

(** In the middle of [chain_run]: the second node has the header of the group, the third has nothing. *)
Example C128_rest_example :
  let r := nrun Release 64 net_new (firstn 11 chain_ops) in
  Forall modest (firstn 11 chain_ops) /\ root_open (fst r) /\ Forall (small_number Release) (taken 0 (snd r)) /\ nothing_failed (fst r) /\
  newest_is (taken 0 (snd r)) (Some 5%N) /\ taken 1 (snd r) = [Group 5 0] /\ taken 2 (snd r) = [].
Proof.
  set (r := nrun Release 64 net_new (firstn 11 chain_ops)). cbv zeta. split; [repeat constructor|].
  let x := eval vm_compute in (nt_links (fst r)) in assert (L : nt_links (fst r) = x) by (vm_compute; reflexivity).
  let x := eval vm_compute in (nth_error (nt_tracks (fst r)) 0) in assert (T : nth_error (nt_tracks (fst r)) 0 = x) by (vm_compute; reflexivity).
  let x := eval vm_compute in (taken 0 (snd r)) in assert (G : taken 0 (snd r) = x) by (vm_compute; reflexivity).
  split; [eexists; split; [exact T|split; reflexivity]|].
  split; [rewrite G; constructor; [split; [reflexivity|discriminate]|constructor]|]. split.
  { intros l ln E. rewrite L in E. destruct l as [|[|[|l]]]; [| |discriminate E|discriminate E];
      injection E as <-; (split; [reflexivity|]); (split; [reflexivity|]); (split; [reflexivity|]); [|constructor].
    constructor; [|constructor]. split; [reflexivity|]. right. right. reflexivity. }
  split; [rewrite G; exists (Group 5 0); split; [split; [left; reflexivity|constructor; [discriminate|constructor]]|reflexivity]|].
  vm_compute. split; reflexivity.
Qed.

(** * C129 *)
(** A copy is finished only if the application finished its track; every other end is a cancellation. *)
Theorem C129_ends : forall m w ops i, (62 <= w)%N -> Forall modest ops -> 1 <= i ->
  let tr := snd (nrun m w net_new ops) in
  match verdict i tr with
  | None => True
  | Some Finished => was_finished 0 tr
  | Some (Failed e) => e = Cancel
  end.
Proof. exact ends. Qed.
Print Assumptions C129_ends.

(** The track is finished after its last group was; the group is written to its stream, whose header is
    read only after the end of the subscription was. *)
Definition late_ops : list nop :=
  [NOpen 0 0 7 0; NUse 1 (TConsume 2); NGroup; NUse 0 (TInsert 0 (Group 5 0)); NFill 0 (GEnd Finished);
   NPoll 0; NUse 0 (TFinish 0); NDone 0 true false; NPoll 0; NEnd 0 true; NRemove 0;
   NArrive 0 0 false false sched (Reader [x00; x07; x05] (Recv [] Fin)); NUse 1 (TNext 0)].
Definition late_run : net * list nevent := nrun Release 64 net_new late_ops.

(** A reader may be told that the track is complete although its last group never arrives: nothing failed
    or was cancelled, and every byte was delivered. *)
Theorem C129_complete_refuted : exists ops,
  let r := nrun Release 64 net_new ops in
  Forall modest ops /\ (forall l, ~ In (NStop l) ops) /\
  Forall (fun ln => Forall (fun st => st_lost st = false /\ st_cancelled st = false /\ st_over st = true) (ln_streams ln)) (nt_links (fst r)) /\
  newest_is (taken 0 (snd r)) (Some 5%N) /\ taken 1 (snd r) = [] /\ verdict 1 (snd r) = Some Finished /\
  In (1, (TNext 0, TGot (AOk None))) (flat_map (fun e => no_did (snd e)) (snd r)).
Proof.
  exists late_ops. fold late_run. split; [repeat constructor|]. split.
  { intros l I. cbn in I. decompose [or] I; try discriminate; contradiction. }
  split; [vm_compute; repeat constructor|]. split.
  { exists (Group 5 0). split; [|reflexivity]. split; vm_compute; [auto|]. constructor; [discriminate|constructor]. }
  vm_compute. repeat split. auto 20.
Qed.
Print Assumptions C129_complete_refuted.

(** The application's error does not reach the readers of a copy. *)
Definition abort_ops : list nop :=
  [NOpen 0 0 7 0; NUse 1 (TConsume 2); NUse 0 (TAbort 0 (App 42)); NPoll 0; NEnd 0 false; NUse 1 (TNext 0)].
Theorem C129_error_refuted : exists ops e,
  let tr := snd (nrun Release 64 net_new ops) in
  verdict 0 tr = Some (Failed e) /\ verdict 1 tr = Some (Failed Cancel) /\ e <> Cancel /\
  In (1, (TNext 0, TGot (AErr Cancel))) (flat_map (fun ev => no_did (snd ev)) tr).
Proof.
  exists abort_ops, (App 42). vm_compute. split; [reflexivity|]. split; [reflexivity|]. split; [discriminate|]. auto 12.
Qed.
Print Assumptions C129_error_refuted.
