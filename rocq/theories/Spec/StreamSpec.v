(** Scripts of read operations and what a caller observes; what a sequence of writes must put on the
    wire. *)
From Coq Require Import NArith List Bool.
From Coq Require Import Init.Byte Strings.Byte.
From Verif.Model Require Import Base Coding Message ErrorCode Stream Frame Transfer.
From Verif.Spec Require Import CodingSpec MessageSpec.
Import ListNotations.
Open Scope N_scope.

(** All bytes a reader has not handed out yet. *)
Definition content (r : reader) : bytes := rd_buf r ++ concat (rc_chunks (rd_stream r)).
Definition ends (r : reader) : ending := rc_end (rd_stream r).
(** The transport contract: a successful read returns at least one byte. *)
Definition no_empty_piece (r : reader) : Prop := Forall (fun c => c <> []) (rc_chunks (rd_stream r)).

(** One read operation: a message, an optional message, the end-of-stream check, or a frame payload
    of a given size. *)
Inductive rop := RDecode (k : kind) | RMaybe (k : kind) | RFinished | RFrame (size : N).

Inductive obs :=
| OMsg (k : kind) (a : await (payload k))
| OMaybe (k : kind) (a : await (option (payload k)))
| OFinished (a : await unit)
| OFrame (t : task) (data : bytes) (c : option outcome).

Definition perform (w : N) (o : rop) (r : reader) : obs * reader :=
  match o with
  | RDecode k => let (a, r) := reader_decode (decode_kind w k) r in (OMsg k a, r)
  | RMaybe k => let (a, r) := reader_decode_maybe (decode_kind w k) r in (OMaybe k a, r)
  | RFinished => let (a, r) := reader_finished r in (OFinished a, r)
  | RFrame size =>
      let '(t, st, r) := run_frame w (frame_fuel r) size size 0 frame_new r in
      (OFrame t (concat (fs_chunks st)) (fs_closed st), r)
  end.

Fixpoint observe (w : N) (script : list rop) (r : reader) : list obs :=
  match script with
  | [] => []
  | o :: script => let (x, r) := perform w o r in x :: observe w script r
  end.

Definition op_fits (w : N) (o : rop) : Prop := match o with RFrame size => size < 2 ^ w | _ => True end.

(** No observation reports exhausted loop fuel (i.e. every operation terminates). *)
Definition settled (x : obs) : Prop :=
  match x with
  | OMsg _ AFuel | OMaybe _ AFuel | OFinished AFuel | OFrame TFuel _ _ | OFrame TPanic _ _ => False
  | _ => True
  end.

(** * Writing *)

Inductive wop := WMsg (k : kind) (m : payload k) | WRaw (bs : bytes).

Definition wop_bytes (o : wop) : res bytes :=
  match o with
  | WMsg k m => match encode_kind k m with Val ps => Val (wire ps) | Panic => Panic end
  | WRaw bs => Val bs
  end.

(** Perform writes in order, stopping at the first that fails, panics or never completes. *)
Fixpoint write_script (l : list wop) (s : send) : res (await unit) * send :=
  match l with
  | [] => (Val (AOk tt), s)
  | o :: l =>
      match o with
      | WMsg k m =>
          match writer_encode (encode_kind k) m s with
          | Panic => (Panic, s)
          | Val (AOk _, s) => write_script l s
          | Val (a, s) => (Val a, s)
          end
      | WRaw bs =>
          match writer_write bs s with
          | (AOk _, s) => write_script l s
          | (a, s) => (Val a, s)
          end
      end
  end.

(** [bs] is the concatenation of what the operations stand for. *)
Fixpoint stands_for (l : list wop) (bs : bytes) : Prop :=
  match l with
  | [] => bs = []
  | o :: l => exists a b, wop_bytes o = Val a /\ stands_for l b /\ bs = a ++ b
  end.

(** A schedule in which every write takes at least one byte. *)
Definition lively (sched : list accept) : Prop := Forall (fun a => exists n, a = Acc (S n)) sched.
