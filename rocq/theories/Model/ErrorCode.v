(** rs/moq/src/error.rs *)
From Coq Require Import NArith List.
From Verif.Model Require Import Base Coding Message.
Open Scope N_scope.

(** error.rs:5-57 [Error].  The web_transport error payload is dropped. *)
Inductive error :=
| WebTransport | Decode (e : decode_error) | Version (client server : list N)
| RequiredExtension (id : N) | UnexpectedStream (t : control_type) | EBoundsExceeded
| Duplicate | Cancel | Timeout | Old | App (code : N) | NotFound | WrongSize | ProtocolViolation.

(** error.rs:61-78 [to_code]; [*app + 64] is u32 arithmetic. *)
Definition to_code (m : mode) (e : error) : res N :=
  match e with
  | Cancel => Val 0
  | RequiredExtension _ => Val 1
  | Old => Val 2
  | Timeout => Val 3
  | WebTransport => Val 4
  | Decode _ => Val 5
  | Version _ _ => Val 9
  | UnexpectedStream _ => Val 10
  | EBoundsExceeded => Val 11
  | Duplicate => Val 12
  | NotFound => Val 13
  | WrongSize => Val 14
  | ProtocolViolation => Val 15
  | App app =>
    if app + 64 <? 2 ^ 32 then Val (app + 64)
    else match m with Debug => Panic | Release => Val ((app + 64) mod 2 ^ 32) end
  end.
