(** When two session errors are the same from the peer's point of view. *)
From Coq Require Import NArith.
From Verif.Model Require Import ErrorCode.

Definition same_kind (a b : error) : Prop :=
  match a, b with
  | WebTransport, WebTransport | Decode _, Decode _ | Version _ _, Version _ _
  | RequiredExtension _, RequiredExtension _ | UnexpectedStream _, UnexpectedStream _
  | EBoundsExceeded, EBoundsExceeded | Duplicate, Duplicate | Cancel, Cancel | Timeout, Timeout
  | Old, Old | NotFound, NotFound | WrongSize, WrongSize | ProtocolViolation, ProtocolViolation => True
  | App a, App b => a = b
  | _, _ => False
  end.

