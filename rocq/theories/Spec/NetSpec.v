(** What readers of the copies of a track observe. *)
From Coq Require Import NArith List Bool.
From Coq Require Import Init.Byte Strings.Byte.
From Verif.Model Require Import Base Coding Message ErrorCode Stream Frame FrameSys TrackSys Publisher Transfer Net.
From Verif.Spec Require Import TrackSpec TransferSpec.
Import ListNotations.
Open Scope nat_scope.

Definition nevent : Type := nop * nout.

(** What happened to the track of node [i]. *)
Definition history (i : nat) (tr : list nevent) : list tevent :=
  flat_map (fun e => flat_map (fun d => if Nat.eqb (fst d) i then [snd d] else []) (no_did (snd e))) tr.

(** The groups the track at node [i] took, and those its reader [c] was given, oldest first. *)
Definition taken (i : nat) (tr : list nevent) : list group := accepted (history i tr).
Definition given (i c : nat) (tr : list nevent) : list group := nth c (groups (history i tr)) [].

(** What has been written to group [j] of node [i]. *)
Definition written (s : net) (i j : nat) : option rgroup := nth_error (nth i (nt_groups s) []) j.

(** The application declares frame sizes that the wire format has. *)
Definition modest (o : nop) : Prop := match o with NFill _ (GFrame size) => (size < 2 ^ 62)%N | _ => True end.

(** [h] is a copy of (the beginning of) [h0], and all of it when it is marked complete. *)
Definition copy_of (h0 h : rgroup) : Prop :=
  copy (frames_of h0) (frames_of h) /\
  (rg_closed h = Some Finished -> finished_group h0 /\ frames_of h = frames_of h0).

(** The highest number in [l]. *)
Definition newest_is (l : list group) (q : option N) : Prop :=
  match q with
  | None => l = []
  | Some n => exists g, newest g l /\ g_seq g = n
  end.

(** The network has come to rest: no subscription has ended or been cancelled, every publisher has seen the
    newest group of its track, no stream failed, and the header of every stream that was not replaced by
    newer ones has been read. *)
Definition at_rest (m : mode) (w : N) (s : net) : Prop :=
  forall l ln, nth_error (nt_links s) l = Some ln ->
    ln_over ln = None /\ ln_phase ln = LRunning /\
    no_did (snd (nstep m w s (NPoll l))) = [(ln_src ln, (TNext (ln_cons ln), TGot APending))] /\
    Forall (fun st => st_lost st = false /\ (st_cancelled st = true \/ st_at st <> None)) (ln_streams ln).

(** A track finished by its owner. *)
Definition was_finished (i : nat) (tr : list nevent) : Prop := exists p, In (TFinish p, TUnit) (history i tr).
(** What asking whether the track of node [i] has ended would give. *)
Definition verdict (i : nat) (tr : list nevent) : option outcome := tverdict (history i tr).

(** * Getting to rest *)

(** Steps of the publishers and of the transport: nothing is lost or given up, and nobody does anything new. *)
Definition delivery (o : nop) : Prop :=
  match o with NPoll _ => True | NArrive _ _ _ canc _ r => canc = false /\ rc_end (rd_stream r) = Open | _ => False end.

(** The application still has its track, which has not ended. *)
Definition root_open (s : net) : Prop :=
  exists t, nth_error (nt_tracks s) 0 = Some t /\ ts_closed t = None /\ tsys_alive t = true.

(** A number that the wire format has; a debug build panics on most numbers from 2^24 on. *)
Definition small_number (m : mode) (g : group) : Prop := (g_seq g < 2 ^ 62)%N /\ (m = Debug -> (g_seq g < 2 ^ 24)%N).

(** No subscription has ended or was cancelled, and no stream failed before its header was read. *)
Definition nothing_failed (s : net) : Prop :=
  forall l ln, nth_error (nt_links s) l = Some ln ->
    (ln_id ln < 2 ^ 62)%N /\ ln_over ln = None /\ ln_phase ln = LRunning /\
    Forall (fun st => st_lost st = false /\ (st_cancelled st = true \/ st_at st <> None \/ st_over st = false)) (ln_streams ln).
