(** rs/moq/src/model/frame.rs: the critical sections of a frame, as functions on its shared state. *)
From Coq Require Import NArith List Bool.
From Coq Require Import Init.Byte Strings.Byte.
From Verif.Model Require Import Base ErrorCode Stream.
Import ListNotations.
Open Scope N_scope.

(** [closed: Option<Result<()>>] uses: the [Result<()>]. *)
Inductive outcome := Finished | Failed (e : error).

(** frame.rs:45-51 [FrameState] *)
Record frame_state := FrameState { fs_chunks : list bytes; fs_closed : option outcome }.
Definition frame_new : frame_state := FrameState [] None.

(** frame.rs:75-84 [write]: the handle's counter is bumped before the checks.  [w] is the word size
    ([size as usize]).  The counter is a usize, and no wrap is modelled: before each write that succeeds it is at
    most [size], so it could wrap only for a frame within one buffer of 2^w bytes. *)
Definition frame_write (w size written : N) (chunk : bytes) (st : frame_state) : N * res frame_state :=
  let written := written + len chunk in
  (written,
   if written <=? size mod 2 ^ w then                                        (* 78 *)
     match fs_closed st with
     | None => Val (FrameState (fs_chunks st ++ [chunk]) None)               (* 80-83 *)
     | Some _ => Panic                                                       (* 81 *)
     end
   else Panic).

(** frame.rs:86-89 [finish] *)
Definition frame_finish (w size written : N) (st : frame_state) : res frame_state :=
  if written =? size mod 2 ^ w then Val (FrameState (fs_chunks st) (Some Finished)) else Panic.

(** frame.rs:91-93 [abort] *)
Definition frame_abort (e : error) (st : frame_state) : frame_state :=
  FrameState (fs_chunks st) (Some (Failed e)).

(** frame.rs:135-156 [read], one poll.  [alive]: whether any sender of the watch channel is left;
    [changed()] fails exactly when none is and nothing is unseen. *)
Definition frame_read (alive : bool) (index : nat) (st : frame_state) : await (option bytes) * nat :=
  match nth_error (fs_chunks st) index with
  | Some c => (AOk (Some c), S index)                                        (* 140-143 *)
  | None =>
    (match fs_closed st with
     | Some Finished => AOk None                                             (* 146 *)
     | Some (Failed e) => AErr e                                             (* 147 *)
     | None => if alive then APending else AErr Cancel                       (* 152-154 *)
     end, index)
  end.

(** frame.rs:159-188 [read_all], one poll; the slice [chunks[index..]] panics out of range. *)
Definition frame_read_all (alive : bool) (index : nat) (st : frame_state) : res (await bytes * nat) :=
  match fs_closed st with
  | Some (Failed e) => Val (AErr e, index)                                   (* 164-166 *)
  | Some Finished =>
      if Nat.leb index (length (fs_chunks st))
      then Val (AOk (concat (skipn index (fs_chunks st))), length (fs_chunks st))   (* 173-187 *)
      else Panic
  | None => Val (if alive then APending else AErr Cancel, index)             (* 169 *)
  end.
