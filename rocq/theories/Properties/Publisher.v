(** Properties C39, C44-C46: announcing, serving tracks, stream priorities, answering subscriptions. *)
From Coq Require Import NArith ZArith List.
From Coq Require Import Init.Byte Strings.Byte.
From Verif.Model Require Import Base Coding ErrorCode Stream Frame FrameSys Map OriginSys Message Publisher.
From Verif.Spec Require Import CodingSpec MessageSpec StreamSpec OriginSpec PublisherSpec.
From Verif.Proofs Require Import PublisherP ServeP AnnounceP AnswerP.
Import ListNotations.
Open Scope nat_scope.

Definition ba : bytes := [x61].  (* "a" *)
Definition bb : bytes := [x62].
Definition turn : nop := NTurn APending 0 [].

(** * C39 *)
(** False: with a broadcast replaced before the end of the old one was noticed, the path is announced
    twice in a row and then reported ended while the new broadcast is live, and nothing is left to do. *)
Theorem C39_alternation_refuted : exists ops s tr path,
  nrun ann_new ops = (s, tr) /\ fed tr = [(path, 0); (path, 1)] /\ closes tr = [0] /\
  (exists t1 t2 t3, tr = t1 ++ (NClose 0, NUnit) :: t2 ++ (NFeed path 1, NUnit) :: t3) /\
  sent tr = [Active path; Active path; Ended path] /\ ~ alternates true (about path (sent tr)) /\
  snd (nstep s turn) = NIdle /\ view path (sent tr) = false /\ open_at path tr = [1].
Proof.
  set (ops := [NFeed ba 0; turn; NClose 0; NFeed ba 1; turn; turn]).
  exists ops, (fst (nrun ann_new ops)), (snd (nrun ann_new ops)), ba.
  split; [destruct (nrun ann_new ops); reflexivity|]. split; [reflexivity|]. split; [reflexivity|].
  split; [exists [(NFeed ba 0, NUnit); (turn, NSent [Active ba])], [], [(turn, NSent [Active ba]); (turn, NSent [Ended ba])]; reflexivity|].
  split; [reflexivity|]. split; [intros (_ & E & _); discriminate|]. split; [reflexivity|]. split; reflexivity.
Qed.
Print Assumptions C39_alternation_refuted.

(** What does hold: when no path is announced anew before everything announced there was reported
    ended, messages alternate and, when nothing is left to do, a peer believes exactly what is so.
    Missing: any other timing. *)
Theorem C39_alternation_partial : forall ops s tr path, nrun ann_new ops = (s, tr) -> polite tr ->
  alternates true (about path (sent tr)) /\
  (forall o s', nstep s o = (s', NIdle) -> (view path (sent tr) = true <-> open_at path tr <> [])).
Proof.
  intros ops s tr path H P. split; [exact (polite_alternates ops s tr H P path)|].
  intros o s' E. exact (polite_view ops s tr o s' path H P E).
Qed.
Print Assumptions C39_alternation_partial.

(** In every run the active messages repeat the announcements in order, none is ended more often than
    it was announced, and when nothing is left to do the difference is what is still open. *)
Theorem C39_accounting : forall ops s tr path, nrun ann_new ops = (s, tr) ->
  (exists later, map fst (fed tr) = flat_map (fun a => match a with Active p => [p] | Ended _ => [] end) (sent tr) ++ later) /\
  count false (about path (sent tr)) <= count true (about path (sent tr)) /\
  count true (about path (sent tr)) <= length (at_path path (fed tr)) /\
  (forall o s', nstep s o = (s', NIdle) ->
     count true (about path (sent tr)) = count false (about path (sent tr)) + length (open_at path tr)).
Proof.
  intros ops s tr path H. split; [exact (actives_in_order ops s tr H)|].
  destruct (ended_le_active ops s tr path H) as (A & B). split; [exact A|]. split; [exact B|].
  intros o s' E. exact (idle_balance ops s tr o s' path H E).
Qed.
Print Assumptions C39_accounting.

(** When the origin ends, every path left active is ended before the stream finishes. *)
Theorem C39_finish_ends_all : forall ops s tr o s' last path, nrun ann_new ops = (s, tr) ->
  nstep s o = (s', NFinished last) -> view path (sent tr ++ last) = false.
Proof. exact finish_clears. Qed.
Print Assumptions C39_finish_ends_all.

(** Two paths, one of them re-announced; then the origin ends. *)
Definition c39_ops : list nop :=
  [NFeed ba 0; NFeed bb 1; turn; turn; turn; NClose 0; turn; NFeed ba 2; turn; turn].
Example C39_example :
  map snd (snd (nrun ann_new (c39_ops ++ [NGone; NTurn APending 0 [1]; turn]))) =
    [NUnit; NUnit; NSent [Active ba]; NSent [Active bb]; NIdle; NUnit; NSent [Ended ba]; NUnit; NSent [Active ba]; NIdle;
     NUnit; NFinished [Ended ba; Ended bb]; NBad] /\
  polite (snd (nrun ann_new c39_ops)).
Proof.
  split; [reflexivity|]. intros t1 p b x t2 E.
  change (snd (nrun ann_new c39_ops)) with (combine c39_ops [NUnit; NUnit; NSent [Active ba]; NSent [Active bb]; NIdle; NUnit; NSent [Ended ba]; NUnit; NSent [Active ba]; NIdle]) in E.
  cbn [combine c39_ops] in E.
  destruct t1 as [|e1 t1]; [injection E as <- <- <- <-; reflexivity|]. injection E as <- E.
  destruct t1 as [|e2 t1]; [injection E as <- <- <- <-; reflexivity|]. injection E as <- E.
  do 5 (destruct t1 as [|? t1]; [discriminate E|]; injection E as <- E).
  destruct t1 as [|e3 t1]; [injection E as <- <- <- <-; reflexivity|]. injection E as <- E.
  do 2 (destruct t1 as [|? t1]; [discriminate E|]; injection E as <- E).
  destruct t1; discriminate E.
Qed.

(** * C44 *)
(** At most two groups in flight; they are among the two newest; none once serving is over. *)
Theorem C44_at_most_two : forall m prio ops s tr, srun m prio tserve_new ops = (s, tr) ->
  exists fl, NoDup fl /\ length fl <= 2 /\ (forall i, in_flight tr i <-> In i fl) /\
    (forall i, In i fl -> i + 2 >= length (obtained tr) /\ i < length (obtained tr)) /\ (is_over tr -> fl = []).
Proof. exact at_most_two. Qed.
Print Assumptions C44_at_most_two.

(** The newest group obtained is in flight unless it completed. *)
Theorem C44_newest_kept : forall m prio ops s tr k, srun m prio tserve_new ops = (s, tr) -> ~ is_over tr ->
  length (obtained tr) = S k -> in_flight tr k \/ In k (completed tr).
Proof. exact newest_kept. Qed.
Print Assumptions C44_newest_kept.

(** A group is cancelled only because the second one after it starts, because the next one completed,
    or because serving ends. *)
Theorem C44_cancelled_only_when : forall m prio ops s tr o s' x i,
  srun m prio tserve_new ops = (s, tr) -> sstep m prio s o = (s', x) -> In i (cancelled_by (o, x)) ->
  in_flight tr i /\
  ((exists q p c, o = SGroup q /\ x = SStarted (i + 2) p c) \/
   (o = SNewDone /\ x = SCompleted (i + 1) [i]) \/ returned_by (o, x) = true).
Proof. exact cancelled_why. Qed.
Print Assumptions C44_cancelled_only_when.

(** Completing the newest group leaves nothing in flight. *)
Theorem C44_completing_newer_cancels_older : forall m prio ops s tr o s' k c,
  srun m prio tserve_new ops = (s, tr) -> sstep m prio s o = (s', SCompleted k c) -> k + 1 = length (obtained tr) ->
  forall i, ~ in_flight (tr ++ [(o, SCompleted k c)]) i.
Proof. exact newer_done_clears. Qed.
Print Assumptions C44_completing_newer_cancels_older.

(** Serving ends without error only after everything in flight is done. *)
Theorem C44_clean_end_waits : forall m prio ops s tr o s' c,
  srun m prio tserve_new ops = (s, tr) -> sstep m prio s o = (s', SReturned None c) ->
  c = [] /\ forall i, ~ in_flight tr i.
Proof. exact clean_end_waits. Qed.
Print Assumptions C44_clean_end_waits.

(** Each group is started at most once, and completed or cancelled at most once. *)
Theorem C44_one_fate : forall m prio ops s tr, srun m prio tserve_new ops = (s, tr) ->
  NoDup (completed tr ++ cancelled tr) /\ incl (completed tr ++ cancelled tr) (started tr) /\ NoDup (started tr).
Proof. exact fates. Qed.
Print Assumptions C44_one_fate.

Example C44_example :
  map snd (snd (srun Release 1 tserve_new
    [SGroup 0; SGroup 3; SGroup 5; SOldDone; SGroup 6; SNewDone; SNoMore])) =
  [SStarted 0 33554431 []; SStarted 1 33554428 []; SStarted 2 33554426 [0]; SCompleted 1 []; SStarted 3 33554425 [];
   SCompleted 3 [2]; SReturned None []].
Proof. reflexivity. Qed.

(** * C45 *)
Open Scope N_scope.
(** False whichever way the transport orders priorities: a newer group gets a lower value, a more
    important track (the catalog has 100, audio 2, video 1) a higher one. *)
Theorem C45_directions_conflict_refuted : exists p1 p2 q1 q2 older newer other,
  p1 < p2 /\ q1 < q2 /\
  stream_priority Release p1 q1 = Val older /\ stream_priority Release p1 q2 = Val newer /\
  stream_priority Release p2 q1 = Val other /\ (newer < older)%Z /\ (older < other)%Z.
Proof. exists 1, 100, 0, 1, 33554431%Z, 33554430%Z, 1694498815%Z. repeat split. Qed.
Print Assumptions C45_directions_conflict_refuted.

(** False: it panics (in builds with overflow checks). *)
Theorem C45_no_panic_refuted : exists p q, p < 256 /\ q < 2 ^ 62 /\ stream_priority Debug p q = Panic.
Proof. exists 0, (2 ^ 24). repeat split. Qed.
Print Assumptions C45_no_panic_refuted.

(** What does hold: within the first 2^24 groups and for priorities below 128 a stream's value is
    lower for lower track priorities and, within a track, for newer groups.  Missing: everything else. *)
Theorem C45_order_partial : forall m p1 q1 p2 q2, p1 < 128 -> p2 < 128 -> q1 < 2 ^ 24 -> q2 < 2 ^ 24 ->
  exists a b, stream_priority m p1 q1 = Val a /\ stream_priority m p2 q2 = Val b /\
    ((a < b)%Z <-> p1 < p2 \/ (p1 = p2 /\ q2 < q1)).
Proof. exact priority_ordered. Qed.
Print Assumptions C45_order_partial.

(** Exactly, for every priority and sequence: the track priority read as a signed byte, then the
    complement of the low 24 bits of the sequence; it panics iff overflow is checked and the sequence
    does not fit 24 bits (of 32). *)
Theorem C45_exact : forall m p q, p < 256 ->
  stream_priority m p q =
    match m with
    | Debug => if 2 ^ 24 <=? q mod 2 ^ 32 then Panic
               else Val ((if (p <? 128)%N then Z.of_N p else Z.of_N p - 256) * 2 ^ 24 + (2 ^ 24 - 1 - Z.of_N (q mod 2 ^ 24)))%Z
    | Release => Val ((if (p <? 128)%N then Z.of_N p else Z.of_N p - 256) * 2 ^ 24 + (2 ^ 24 - 1 - Z.of_N (q mod 2 ^ 24)))%Z
    end.
Proof. exact stream_priority_exact. Qed.
Print Assumptions C45_exact.

(** Track priorities from 128 up are below all others. *)
Theorem C45_high_priorities_refuted : exists p1 p2 a b, p1 < p2 /\ p2 < 256 /\
  stream_priority Release p1 0 = Val a /\ stream_priority Release p2 0 = Val b /\ (b < a)%Z.
Proof. exists 0, 128, 16777215%Z, (-2130706433)%Z. repeat split. Qed.
Print Assumptions C45_high_priorities_refuted.

Example C45_example : stream_priority Debug 127 (2 ^ 24 - 1) = Val 2130706432%Z /\ stream_priority Debug 5 77 = Val 100663218%Z.
Proof. split; reflexivity. Qed.

(** * C46 *)
Open Scope nat_scope.
(** Exactly which broadcast serves a request: the one last published at the path, unless the cleanup
    of any broadcast published there has run since; if none, the request ends as not found. *)
Theorem C46_served_exact : forall w ops s tr p m r rest,
  orun osys_new ops = (s, tr) -> producing s p -> asks w m r rest ->
  match active (sub_broadcast m) tr with
  | Some b => exists r', recv_subscribe w s p r = Serving b m r' /\ content r' = rest
  | None => recv_subscribe w s p r = Unserved NotFound
  end.
Proof. exact answer_exact. Qed.
Print Assumptions C46_served_exact.

(** What does hold of the full claim: if nothing published at the path has ended, the latest serves;
    if nothing was published there, it is not found.  Missing: once a broadcast there has ended. *)
Theorem C46_served_partial : forall w ops s tr p m r rest bs,
  orun osys_new ops = (s, tr) -> producing s p -> asks w m r rest ->
  announced (sub_broadcast m) tr = bs -> (forall b, In b bs -> ~ ended b tr) ->
  match rev bs with
  | b :: _ => exists r', recv_subscribe w s p r = Serving b m r' /\ content r' = rest
  | [] => recv_subscribe w s p r = Unserved NotFound
  end.
Proof. exact answer_alive. Qed.
Print Assumptions C46_served_partial.

(** The request for track "b" of broadcast "a". *)
Definition req : subscribe := Subscribe 0 ba bb x00.
Definition req_reader : reader := Reader [] (Recv [[x00; x01; x61; x01; x62; x00]] Open).
Lemma req_asks : asks 64 req req_reader [].
Proof.
  split; [|eexists; split; [reflexivity|reflexivity]].
  cbv [wf ok_int ok_text ok_bytes sub_id sub_broadcast sub_track req ba bb].
  repeat split; try (apply BaseP.utf8_valid_iff; vm_compute; reflexivity).
Qed.

(** False: the replacement of a broadcast that has ended is not found. *)
Theorem C46_replacement_refuted : exists ops s tr p path old new w r,
  orun osys_new ops = (s, tr) /\ producing s p /\ announced path tr = [old; new] /\ ~ ended new tr /\
  asks w req r [] /\ sub_broadcast req = path /\
  recv_subscribe w s p r = Unserved NotFound.
Proof.
  set (ops := [ONew; ONew; OPublish 0 ba 0; OPublish 0 ba 1; OEnd 0; OTask 0]).
  exists ops, (fst (orun osys_new ops)), (snd (orun osys_new ops)), 0, ba, 0, 1, 64%N, req_reader.
  split; [destruct (orun osys_new ops); reflexivity|]. split; [reflexivity|]. split; [reflexivity|].
  split; [|split; [exact req_asks|split; reflexivity]].
  assert (E : snd (orun osys_new ops) = [(ONew, OBroadcast 0); (ONew, OBroadcast 1); (OPublish 0 ba 0, OUnique true);
    (OPublish 0 ba 1, OUnique false); (OEnd 0, OUnit); (OTask 0, ORan ba)]) by reflexivity.
  rewrite E. unfold ended. cbn [In]. intros H. repeat (destruct H as [H|H]; [discriminate H|]). exact H.
Qed.
Print Assumptions C46_replacement_refuted.

(** False: a broadcast that has ended still serves until its cleanup runs. *)
Theorem C46_ended_refuted : exists ops s tr p path b w r r',
  orun osys_new ops = (s, tr) /\ producing s p /\ announced path tr = [b] /\ ended b tr /\
  sub_broadcast req = path /\ recv_subscribe w s p r = Serving b req r'.
Proof.
  set (ops := [ONew; OPublish 0 ba 0; OEnd 0]).
  exists ops, (fst (orun osys_new ops)), (snd (orun osys_new ops)), 0, ba, 0, 64%N, req_reader, (Reader [] (Recv [] Open)).
  split; [destruct (orun osys_new ops); reflexivity|]. split; [reflexivity|]. split; [reflexivity|].
  split; [|split; reflexivity]. unfold ended. cbn. auto.
Qed.
Print Assumptions C46_ended_refuted.

Example C46_example :
  recv_subscribe 64 (fst (orun osys_new [ONew; ONew; OPublish 0 ba 0; OPublish 0 ba 1])) 0 req_reader =
  Serving 1 req (Reader [] (Recv [] Open)) /\
  recv_subscribe 64 (fst (orun osys_new [ONew; OPublish 0 bb 0])) 0 req_reader = Unserved NotFound.
Proof. split; reflexivity. Qed.
