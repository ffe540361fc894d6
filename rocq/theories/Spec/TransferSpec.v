(** What it means for a group to arrive. *)
From Coq Require Import NArith List Bool.
From Coq Require Import Init.Byte Strings.Byte.
From Verif.Model Require Import Base Coding Message ErrorCode Stream Frame Transfer.
From Verif.Spec Require Import CodingSpec MessageSpec StreamSpec.
Import ListNotations.
Open Scope N_scope.

Definition prefix {A} (p l : list A) : Prop := exists q, l = p ++ q.

(** A frame as a reader can see it: declared size, bytes so far, outcome. *)
Definition seen_frame : Type := N * bytes * option outcome.
Definition frames_of (g : rgroup) : list seen_frame :=
  map (fun f => (fst f, concat (fs_chunks (snd f)), fs_closed (snd f))) (rg_frames g).

(** The source: a group whose frames were written within their declared size, and completely where
    they are marked finished. *)
Definition honest_frame (f : frame_view) : Prop :=
  N.of_nat (length (concat (fv_chunks f))) <= fv_size f /\
  (fv_end f = AOk tt -> N.of_nat (length (concat (fv_chunks f))) = fv_size f).
(** Sizes that fit the wire format and the receiver's word. *)
Definition sizes_fit (w : N) (f : frame_view) : Prop := fv_size f < 2 ^ 62 /\ fv_size f < 2 ^ w.

Definition header_ok (h : group_header) : Prop := gh_subscribe h < 2 ^ 62 /\ gh_sequence h < 2 ^ 62.

(** The finished frame a source frame should become. *)
Definition whole (f : frame_view) : seen_frame := (fv_size f, concat (fv_chunks f), Some Finished).
Definition is_whole (f : frame_view) : Prop := fv_end f = AOk tt.
Definition finished_view (v : group_view) : Prop := Forall is_whole (gv_frames v) /\ gv_end v = AOk tt.

(** All declared bytes were written (whether or not the frame was then marked finished). *)
Definition all_written (f : frame_view) : Prop := N.of_nat (length (concat (fv_chunks f))) = fv_size f.

(** Some source frames from the start arrived whole, and possibly the next one in part, which is
    not marked finished. *)
Definition arrived_from (src : list frame_view) (got : list seen_frame) : Prop :=
  exists n, Forall all_written (firstn n src) /\
    (got = map whole (firstn n src) \/
     exists f part o, nth_error src n = Some f /\ got = map whole (firstn n src) ++ [(fv_size f, part, o)] /\
       prefix part (concat (fv_chunks f)) /\ N.of_nat (length part) < fv_size f /\ o <> Some Finished).

(** The delivered bytes end exactly after the [n]-th frame. *)
Definition on_boundary (hdr : group_header) (src : list frame_view) (p : bytes) : Prop :=
  exists n t h fs, data_type_encode DGroup = Val t /\ group_header_encode hdr = Val h /\
    Forall all_written (firstn n src) /\
    encodes_seq (fun f => match frame_header_encode (fv_size f) with
                          | Val ps => Val (ps ++ map PSlice (fv_chunks f))
                          | Panic => Panic
                          end) (firstn n src) fs /\
    p = wire t ++ wire h ++ fs.

(** What a truthful transport can deliver of a stream on which [s] was written with result [sv]: a
    prefix; and a clean end only if the sender finished and everything arrived. *)
Definition delivered (sv : served) (s : send) (r : reader) : Prop :=
  prefix (content r) (sd_sent s) /\ no_empty_piece r /\
  (ends r = Fin -> sv = SFinished /\ content r = sd_sent s).

(** One hop: the copy [g] is served (to a fresh stream, with any write schedule), any truthful
    delivery of it is received as [g']. *)
Definition hop (w : N) (g g' : rgroup) : Prop :=
  exists hdr live sched sv s r canc t, header_ok hdr /\
    serve_group hdr (view_of live g) (Send [] sched) = (sv, s) /\ delivered sv s r /\
    recv_stream w canc r = Arrived hdr t g'.

Inductive hops (w : N) : rgroup -> rgroup -> Prop :=
| hops_one g g' : hop w g g' -> hops w g g'
| hops_more g g1 g2 : hops w g g1 -> hop w g1 g2 -> hops w g g2.

(** An undisturbed hop: served to the end, everything delivered, however it was sliced. *)
Definition full_hop (w : N) (g g' : rgroup) : Prop :=
  exists hdr live sched s r canc t, header_ok hdr /\
    serve_group hdr (view_of live g) (Send [] sched) = (SFinished, s) /\
    content r = sd_sent s /\ ends r = Fin /\ no_empty_piece r /\
    recv_stream w canc r = Arrived hdr t g'.

Inductive full_hops (w : N) : rgroup -> rgroup -> Prop :=
| full_hops_none g : full_hops w g g
| full_hops_more g g1 g2 : full_hops w g g1 -> full_hop w g1 g2 -> full_hops w g g2.

(** [got] is a copy of some frames of [src] from the start, all of them complete, possibly followed
    by an incomplete part of the next one that is not marked finished. *)
Definition seal (f : seen_frame) : seen_frame := (fst f, Some Finished).
Definition fully (f : seen_frame) : Prop := N.of_nat (length (snd (fst f))) = fst (fst f).
Definition copy (src got : list seen_frame) : Prop :=
  exists pre suf, src = pre ++ suf /\ Forall fully pre /\
    (got = map seal pre \/
     exists size data o part o' suf', suf = (size, data, o) :: suf' /\
       got = map seal pre ++ [(size, part, o')] /\ prefix part data /\
       N.of_nat (length part) < size /\ o' <> Some Finished).

(** A group held locally: sizes respected, complete where marked finished. *)
Definition sound_group (w : N) (g : rgroup) : Prop :=
  Forall (fun f => N.of_nat (length (concat (fs_chunks (snd f)))) <= fst f /\
                   (fs_closed (snd f) = Some Finished -> N.of_nat (length (concat (fs_chunks (snd f)))) = fst f) /\
                   fst f < 2 ^ 62 /\ fst f < 2 ^ w) (rg_frames g).
Definition finished_group (g : rgroup) : Prop :=
  rg_closed g = Some Finished /\ Forall (fun f => fs_closed (snd f) = Some Finished) (rg_frames g).
