(** Moving one group over one unidirectional stream: publisher.rs:183-213,237-280 ([Writer::open] and
    [serve_group]) and session/mod.rs:127-150, subscriber.rs:210-280 ([run_uni], [run_data], [recv_group],
    [run_group], [run_frame]). *)
From Coq Require Import NArith List Bool.
From Coq Require Import Init.Byte Strings.Byte.
From Verif.Model Require Import Base Coding Message ErrorCode Stream Frame.
Import ListNotations.
Open Scope N_scope.

(** * Publisher *)

(** What the publisher's consumer of the group will be told: each frame with the chunks successive
    [read] calls return and how it ends ([APending]: it never does), then how the group ends.  These
    are the values [GroupConsumer::next_frame] and [FrameConsumer::read] return (model/group.rs,
    model/frame.rs). *)
Record frame_view := FrameView { fv_size : N; fv_chunks : list bytes; fv_end : await unit }.
Record group_view := GroupView { gv_frames : list frame_view; gv_end : await unit }.

(** How serving ended. *)
Inductive served := SFinished | SFailed (e : error) | SPending | SPanic.

Definition of_await (a : await unit) (k : send -> served * send) (s : send) : served * send :=
  match a with
  | AOk _ => k s
  | AErr e => (SFailed e, s)
  | APending | AFuel => (SPending, s)
  end.

Definition then_write (x : await unit * send) (k : send -> served * send) : served * send :=
  of_await (fst x) k (snd x).

Definition then_encode {A} (enc : encoder A) (m : A) (s : send) (k : send -> served * send) : served * send :=
  match writer_encode enc m s with
  | Panic => (SPanic, s)
  | Val x => then_write x k
  end.

(** publisher.rs:261-272, the chunk loop.  [stream.closed()] winning the select is a write schedule
    that fails or stops at this point. *)
Fixpoint serve_chunks (cs : list bytes) (fin : await unit) (k : send -> served * send) (s : send)
  : served * send :=
  match cs with
  | c :: cs => then_write (writer_write c s) (serve_chunks cs fin k)      (* 267 *)
  | [] => of_await fin k s                                               (* 268, or the error of [chunk?] *)
  end.

(** publisher.rs:246-275, the frame loop.  The debug-only overflow of the byte total ([size += ..],
    256) is not modelled. *)
Fixpoint serve_frames (fs : list frame_view) (fin : await unit) (s : send) : served * send :=
  match fs with
  | f :: fs =>
      then_encode frame_header_encode (fv_size f) s                        (* 258-259 *)
        (serve_chunks (fv_chunks f) (fv_end f) (serve_frames fs fin))
  | [] => of_await fin (fun s => (SFinished, s)) s                         (* 253, 277 *)
  end.

(** publisher.rs:185 [Writer::open] sends the stream type, then 237-280 [serve_group].  [SFinished]
    is the only case in which the stream is finished (FIN); in every other case it is reset or
    nothing more is sent. *)
Definition serve_group (hdr : group_header) (g : group_view) (s : send) : served * send :=
  then_encode data_type_encode DGroup s (fun s =>
  then_encode group_header_encode hdr s (fun s =>
  serve_frames (gv_frames g) (gv_end g) s)).

(** * Subscriber *)

(** The subscriber's copy of the group: shared state of the group and of its frames. *)
Record rgroup := RGroup { rg_frames : list (N * frame_state); rg_closed : option outcome }.

(** How a receive task stands. *)
Inductive task := TDone | TFailed (e : error) | TPending | TFuel | TPanic.

(** subscriber.rs:268-280 [run_frame]; [w] word size, [written] the counter of the handle. *)
Fixpoint run_frame (w : N) (fuel : nat) (size remain written : N) (st : frame_state) (r : reader)
  : task * frame_state * reader :=
  if remain =? 0 then
    match frame_finish w size written st with                              (* 277 *)
    | Val st => (TDone, st, r)
    | Panic => (TPanic, st, r)
    end
  else
    match fuel with
    | O => (TFuel, st, r)
    | S fuel =>
      let (x, r) := reader_read (remain mod 2 ^ w) r in                    (* 272 *)
      match x with
      | AOk None => (TFailed WrongSize, st, r)
      | AErr e => (TFailed e, st, r)
      | APending => (TPending, st, r)
      | AFuel => (TFuel, st, r)
      | AOk (Some chunk) =>
          if remain <? len chunk then (TFailed WrongSize, st, r)           (* 273 *)
          else
            let (written, st') := frame_write w size written chunk st in   (* 274 *)
            match st' with
            | Panic => (TPanic, st, r)
            | Val st => run_frame w fuel size (remain - len chunk) written st r
            end
      end
    end.

(** Enough steps for the loop above: one for the buffer and one per piece. *)
Definition frame_fuel (r : reader) : nat := S (S (length (rc_chunks (rd_stream r)))).

(** subscriber.rs:248-266 [run_group].  The frame's [unused()] branch (253) cannot fire: the group's
    state holds a consumer of every frame as long as the group exists.  An abandoned task
    ([group.unused()], 226) is one that stays [TPending].  [fs] are the frames so far. *)
Fixpoint run_group (w : N) (fuel : nat) (fs : list (N * frame_state)) (r : reader)
  : task * rgroup * reader :=
  match fuel with
  | O => (TFuel, RGroup fs None, r)
  | S fuel =>
    let (x, r) := reader_decode_maybe frame_header_decode r in             (* 249 *)
    match x with
    | AErr e => (TFailed e, RGroup fs None, r)
    | APending => (TPending, RGroup fs None, r)
    | AFuel => (TFuel, RGroup fs None, r)
    | AOk None => (TDone, RGroup fs (Some Finished), r)                    (* 263 *)
    | AOk (Some size) =>
        match run_frame w (frame_fuel r) size size 0 frame_new r with      (* 250-255 *)
        | (TDone, st, r) => run_group w fuel (fs ++ [(size, st)]) r
        | (TFailed e, st, r) =>
            (TFailed e, RGroup (fs ++ [(size, frame_abort e st)]) None, r) (* 257-260 *)
        | (t, st, r) => (t, RGroup (fs ++ [(size, st)]) None, r)
        end
    end
  end.

(** Total number of bytes the reader can still see. *)
Definition available (r : reader) : nat :=
  length (rd_buf r) + length (concat (rc_chunks (rd_stream r))).

(** subscriber.rs:225-243: the group's final state.  [cancelled]: the group lost its last reader
    while the task was waiting (226). *)
Definition settle (w : N) (cancelled : bool) (r : reader) : task * rgroup :=
  match run_group w (S (available r)) [] r with
  | (TFailed Cancel, g, _) | (TFailed WebTransport, g, _) =>
      (TFailed Cancel, RGroup (rg_frames g) (Some (Failed Cancel)))        (* 231-234 *)
  | (TFailed e, g, _) => (TFailed e, RGroup (rg_frames g) (Some (Failed e)))   (* 235-238 *)
  | (TPending, g, _) =>
      if cancelled then (TFailed Cancel, RGroup (rg_frames g) (Some (Failed Cancel))) else (TPending, g)
  | (TDone, g, _) => (TDone, RGroup (rg_frames g) (Some Finished))         (* 239-242 *)
  | (t, g, _) => (t, g)
  end.

(** What arrives at the subscriber: nothing usable (the stream is refused before a group exists), or
    a group with its header. *)
Inductive arrival := NoGroup (e : await unit) | Arrived (h : group_header) (t : task) (g : rgroup).

(** session/mod.rs:138-143 [run_data] and subscriber.rs:211: stream type, group header, then the group.
    The lookup of the subscription and track (216-222) is modelled in Subscriber.v. *)
Definition recv_stream (w : N) (cancelled : bool) (r : reader) : arrival :=
  match reader_decode data_type_decode r with
  | (AErr e, _) => NoGroup (AErr e)
  | (APending, _) => NoGroup APending
  | (AFuel, _) => NoGroup AFuel
  | (AOk DGroup, r) =>
    match reader_decode group_header_decode r with
    | (AErr e, _) => NoGroup (AErr e)
    | (APending, _) => NoGroup APending
    | (AFuel, _) => NoGroup AFuel
    | (AOk h, r) => let (t, g) := settle w cancelled r in Arrived h t g
    end
  end.

(** * Relaying: serving the copy another session received *)

(** What a consumer of the received group is told (frame.rs:135-156, group.rs:188-214) once the
    receiving task is over and has dropped its handles ([AErr Cancel] if nothing was recorded) or
    while it is still waiting ([live]). *)
Definition end_view (live : bool) (o : option outcome) : await unit :=
  match o with
  | Some Finished => AOk tt
  | Some (Failed e) => AErr e
  | None => if live then APending else AErr Cancel
  end.
Definition view_of (live : bool) (g : rgroup) : group_view :=
  GroupView (map (fun f => FrameView (fst f) (fs_chunks (snd f)) (end_view live (fs_closed (snd f))))
                 (rg_frames g))
            (end_view live (rg_closed g)).
