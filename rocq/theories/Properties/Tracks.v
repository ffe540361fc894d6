(** Properties C22, C25-C30, C71 for a track and all its handles. *)
From Coq Require Import NArith ZArith List.
From Verif.Model Require Import Base ErrorCode Stream Frame FrameSys TrackSys.
From Verif.Spec Require Import TrackSpec.
From Verif.Proofs Require Import TrackP.
Import ListNotations.
Open Scope N_scope.

(** * C26 *)
Theorem C26_readers_move_forward : forall m ops c,
  let tr := snd (trun m tsys_new ops) in
  increasing (nth c (groups tr) []) /\ incl (nth c (groups tr) []) (accepted tr).
Proof. exact readers_forward. Qed.
Print Assumptions C26_readers_move_forward.

Definition c26_ops : list top :=
  [TConsume 0; TNext 0; TInsert 0 (Group 5 0); TNext 0; TInsert 0 (Group 3 1); TNext 0; TCClone 0; TInsert 0 (Group 7 2);
   TInsert 0 (Group 9 3); TNext 0; TNext 1; TInsert 0 (Group 9 4); TNext 0].
Example C26_example :
  let tr := snd (trun Debug tsys_new c26_ops) in
  groups tr = [[Group 5 0; Group 9 3]; [Group 5 0; Group 9 3]] /\ accepted tr = [Group 5 0; Group 7 2; Group 9 3] /\
  last (map snd tr) TUnit = TGot APending.
Proof. vm_compute. auto. Qed.

(** * C27 *)
Theorem C27_accepted_iff_newer : forall m ops p g s' x,
  let r := trun m tsys_new ops in
  tstep m (fst r) (TInsert p g) = (s', x) -> x <> TBad ->
  match tverdict (snd r) with
  | Some _ => x = TPanics /\ s' = fst r
  | None =>
      (newer_than_all g (accepted (snd r)) /\ x = TInserted true) \/
      (~ newer_than_all g (accepted (snd r)) /\ x = TInserted false /\ s' = fst r)
  end.
Proof. exact insert_result. Qed.
Print Assumptions C27_accepted_iff_newer.
Example C27_example :
  map snd (snd (trun Debug tsys_new [TInsert 0 (Group 5 0); TInsert 0 (Group 5 1); TInsert 0 (Group 4 2); TInsert 0 (Group 6 3)]))
  = [TInserted true; TInserted false; TInserted false; TInserted true].
Proof. reflexivity. Qed.

(** * C28 *)
Theorem C28_freshest_without_waiting : forall m ops c s' x,
  let r := trun m tsys_new ops in
  tstep m (fst r) (TNext c) = (s', x) -> x <> TBad ->
  let got := nth c (groups (snd r)) [] in
  match tverdict (snd r) with
  | Some Finished => x = TGot (AOk None)
  | Some (Failed e) => x = TGot (AErr e)
  | None =>
      (exists g, newest g (accepted (snd r)) /\ newer_than_all g got /\ x = TGot (AOk (Some g))) \/
      ((forall g, In g (accepted (snd r)) -> ~ newer_than_all g got) /\
       x = TGot (if tsys_alive (fst r) then APending else AErr Cancel))
  end.
Proof. exact next_result. Qed.
Print Assumptions C28_freshest_without_waiting.

(** * C29 *)
(** False: a finished track reports its end instead of the newest group. *)
Theorem C29_finish_hides_group_refuted : exists ops g c,
  let r := trun Debug tsys_new ops in
  newest g (accepted (snd r)) /\ tverdict (snd r) = Some Finished /\ nth c (groups (snd r)) [] = [] /\
  snd (tstep Debug (fst r) (TNext c)) = TGot (AOk None).
Proof.
  exists [TConsume 0; TInsert 0 (Group 5 0); TFinish 0], (Group 5 0), 0%nat. vm_compute.
  repeat split; auto. repeat constructor; discriminate.
Qed.
Print Assumptions C29_finish_hides_group_refuted.
(** Exactly: the group is obtained if and only if the reader polls before the track is closed
    (the open case is C28). *)
Theorem C29_only_before_close_partial : forall m ops c s' x,
  let r := trun m tsys_new ops in
  tstep m (fst r) (TNext c) = (s', x) ->
  (exists g, x = TGot (AOk (Some g))) ->
  tverdict (snd r) = None.
Proof. exact obtained_only_open. Qed.
Print Assumptions C29_only_before_close_partial.
Example C29_example : snd (tstep Debug (fst (trun Debug tsys_new [TConsume 0; TInsert 0 (Group 5 0)])) (TNext 0)) = TGot (AOk (Some (Group 5 0))).
Proof. reflexivity. Qed.

(** * C30 *)
(** False when two clones append at the same time: one of them panics. *)
Theorem C30_append_race_refuted : exists ops,
  let tr := snd (trun Debug tsys_new ops) in
  tverdict tr = None /\ accepted tr = [Group 0 0] /\ last (map snd tr) TUnit = TPanics /\
  Forall (fun e => snd e <> TBad) tr.
Proof.
  exists [TClone 0; TAppend1 0; TAppend1 1; TAppend2 0 0; TAppend2 1 1]. vm_compute.
  repeat split; repeat constructor; discriminate.
Qed.
Print Assumptions C30_append_race_refuted.
(** False after the largest sequence number. *)
Theorem C30_append_overflow_refuted : forall m, exists ops,
  let tr := snd (trun m tsys_new ops) in
  tverdict tr = None /\ last (map snd tr) TUnit = TPanics /\ Forall (fun e => snd e <> TBad) tr.
Proof.
  intros [|].
  - exists [TInsert 0 (Group (2 ^ 64 - 1) 0); TAppend1 0]. vm_compute. repeat split; repeat constructor; discriminate.
  - exists [TInsert 0 (Group (2 ^ 64 - 1) 0); TAppend1 0; TAppend2 0 1]. vm_compute. repeat split; repeat constructor; discriminate.
Qed.
Print Assumptions C30_append_overflow_refuted.
(** What holds: an append that is not raced succeeds, with the next number. *)
Theorem C30_append_alone_partial : forall m ops p id,
  let r := trun m tsys_new ops in
  tverdict (snd r) = None -> idle (fst r) p = true ->
  Forall (fun g => g_seq g + 1 < 2 ^ 64) (accepted (snd r)) ->
  exists n, map snd (snd (trun m (fst r) [TAppend1 p; TAppend2 p id])) = [TUnit; TAppended (Group n id)] /\
    ((accepted (snd r) = [] /\ n = 0) \/ exists g, newest g (accepted (snd r)) /\ n = g_seq g + 1).
Proof. exact append_alone. Qed.
Print Assumptions C30_append_alone_partial.
(** And the exact outcome under any race. *)
Theorem C30_append_outcome_partial : forall m ops p id n s' x,
  let r := trun m tsys_new ops in
  get (ts_prods (fst r)) p = Some (Appending n) ->
  tstep m (fst r) (TAppend2 p id) = (s', x) ->
  (x = TAppended (Group n id) /\ tverdict (snd r) = None /\ newer_than_all (Group n id) (accepted (snd r))) \/
  (x = TPanics /\ (tverdict (snd r) <> None \/ ~ newer_than_all (Group n id) (accepted (snd r)))).
Proof. exact append_second. Qed.
Print Assumptions C30_append_outcome_partial.
Example C30_example :
  let r := trun Debug tsys_new [TInsert 0 (Group 5 0)] in
  tverdict (snd r) = None /\ idle (fst r) 0 = true /\ Forall (fun g => g_seq g + 1 < 2 ^ 64) (accepted (snd r)).
Proof. split; [reflexivity|]. split; [reflexivity|]. constructor; [reflexivity|constructor]. Qed.

(** * C22 *)
Theorem C22_track_readers_released : forall m ops c s' x,
  let r := trun m tsys_new ops in
  tsys_alive (fst r) = false -> tstep m (fst r) (TNext c) = (s', x) -> x <> TGot APending.
Proof. exact track_released. Qed.
Print Assumptions C22_track_readers_released.
Theorem C22_track_closed_result : forall m ops c s' x,
  let r := trun m tsys_new ops in
  tstep m (fst r) (TClosed c) = (s', x) -> x <> TBad ->
  s' = fst r /\
  x = TEnd (match tverdict (snd r) with
            | Some o => AOk o
            | None => if tsys_alive (fst r) then APending else AErr Cancel
            end).
Proof. exact closed_result. Qed.
Print Assumptions C22_track_closed_result.
Example C22_track_example :
  let s := fst (trun Debug tsys_new [TConsume 0; TInsert 0 (Group 2 0); TClone 0; TDrop 0; TDrop 1]) in
  tsys_alive s = false /\ map snd (snd (trun Debug s [TNext 0; TNext 0; TClosed 0])) =
    [TGot (AOk (Some (Group 2 0))); TGot (AErr Cancel); TEnd (AErr Cancel)].
Proof. auto. Qed.

(** * C25 *)
Theorem C25_track_closed_insert_panics : forall m ops p g s' x,
  let r := trun m tsys_new ops in
  tverdict (snd r) <> None -> tstep m (fst r) (TInsert p g) = (s', x) -> x <> TBad -> x = TPanics /\ s' = fst r.
Proof. exact insert_closed. Qed.
Print Assumptions C25_track_closed_insert_panics.
Theorem C25_track_open_insert_ok : forall m ops p g s' x,
  let r := trun m tsys_new ops in
  tverdict (snd r) = None -> tstep m (fst r) (TInsert p g) = (s', x) -> x <> TPanics.
Proof. exact insert_open. Qed.
Print Assumptions C25_track_open_insert_ok.
Example C25_track_example :
  map snd (snd (trun Debug tsys_new [TClone 0; TFinish 0; TInsert 1 (Group 0 0)])) = [TUnit; TUnit; TPanics].
Proof. reflexivity. Qed.

(** * C71 *)
Theorem C71_track_end_overwritten_refuted : exists ops c e,
  let tr := snd (trun Debug tsys_new ops) in
  exists tr1 tr2, tr = tr1 ++ (TNext c, TGot (AOk None)) :: tr2 /\ In (TNext c, TGot (AErr e)) tr2.
Proof.
  exists [TConsume 0; TClone 0; TFinish 0; TNext 0; TAbort 1 Cancel; TNext 0], 0%nat, Cancel.
  exists [(TConsume 0, TUnit); (TClone 0, TUnit); (TFinish 0, TUnit)], [(TAbort 1 Cancel, TUnit); (TNext 0, TGot (AErr Cancel))].
  split; [reflexivity|]. right. left. reflexivity.
Qed.
Print Assumptions C71_track_end_overwritten_refuted.
