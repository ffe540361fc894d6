(** rs/moq/src/session/mod.rs and session/stream.rs: the handshake, the session control stream and the
    dispatch of streams opened by the peer.  Opening and accepting a stream (stream.rs:10-27) is the
    transport's: a stream is given as the pair of a reader and a send half. *)
From Coq Require Import NArith List Bool.
From Coq Require Import Init.Byte Strings.Byte.
From Verif.Model Require Import Base Coding Message ErrorCode Stream Frame Transfer.
Import ListNotations.
Open Scope N_scope.

(** Outcome of a handshake: the result, and the two halves of the stream afterwards. *)
Record shaken := Shaken { sk_result : res (await unit); sk_reader : reader; sk_send : send }.

(** Propagate an unsuccessful result to another type (the [?] operator and suspension). *)
Definition failed {A} (a : await A) : await unit :=
  match a with AOk _ => AOk tt | AErr e => AErr e | APending => APending | AFuel => AFuel end.

(** [self.writer.encode(&msg).await?], then the rest. *)
Definition send_msg {A} (enc : encoder A) (m : A) (r : reader) (s : send) (k : send -> shaken) : shaken :=
  match writer_encode enc m s with
  | Panic => Shaken Panic r s
  | Val (AOk _, s) => k s
  | Val (a, s) => Shaken (Val a) r s
  end.

(** [self.reader.decode().await?], then the rest. *)
Definition recv_msg {A} (dec : decoder A) (r : reader) (s : send) (k : A -> reader -> shaken) : shaken :=
  match reader_decode dec r with
  | (AOk m, r) => k m r
  | (a, r) => Shaken (Val (failed a)) r s
  end.

(** mod.rs:75-87 [connect_setup] *)
Definition connect_setup (w : N) (r : reader) (s : send) : shaken :=
  send_msg client_setup_encode (ClientSetup [version_current] []) r s (fun s =>
  recv_msg (server_setup_decode w) r s (fun server r =>
  Shaken (Val (AOk tt)) r s)).

(** mod.rs:68-73 [connect]; stream.rs:15 sends the stream type. *)
Definition connect (w : N) (r : reader) (s : send) : shaken :=
  send_msg control_type_encode CSession r s (fun s => connect_setup w r s).

Definition control_type_eqb (a b : control_type) : bool :=
  match a, b with
  | CSession, CSession | CAnnounce, CAnnounce | CSubscribe, CSubscribe => true
  | _, _ => false
  end.

(** mod.rs:103-120 [accept_setup] *)
Definition accept_setup (w : N) (r : reader) (s : send) : shaken :=
  recv_msg (client_setup_decode w) r s (fun client r =>
  if negb (existsb (N.eqb version_current) (cs_versions client)) then
    Shaken (Val (AErr (Version (cs_versions client) [version_current]))) r s
  else
    send_msg server_setup_encode (ServerSetup version_current []) r s (fun s =>
    Shaken (Val (AOk tt)) r s)).

(** mod.rs:90-101 [accept] *)
Definition accept (w : N) (r : reader) (s : send) : shaken :=
  recv_msg control_type_decode r s (fun kind r =>
  if negb (control_type_eqb kind CSession) then Shaken (Val (AErr (UnexpectedStream kind))) r s
  else accept_setup w r s).

(** mod.rs:122-125 [run_session]: one [SubscribeOk] (a byte) after another until the clean end. *)
Fixpoint run_session (fuel : nat) (r : reader) : await unit :=
  match fuel with
  | O => AFuel
  | S fuel =>
    match reader_decode_maybe subscribe_ok_decode r with
    | (AOk (Some _), r) => run_session fuel r
    | (AOk None, _) => AErr Cancel
    | (a, _) => failed a
    end
  end.

(** Each round takes a byte, so this is enough fuel (proved). *)
Definition session_stream (r : reader) : await unit := run_session (S (available r)) r.

(** * Streams opened by the peer *)

(** What becomes of a stream: a handler takes over with the rest of the input; it is refused, the
    task returning an error and the peer seeing the given reset code; or the kind has not arrived. *)
Inductive dispatched :=
| ToAnnounce (r : reader) | ToSubscribe (r : reader) | ToGroup (r : reader)
| Refused (e : error) (code : N)
| Undecided
| DispatchFuel.

(** mod.rs:163-177 [run_control].  A failed decode returns at 164 and drops the stream, whose writer
    resets with the code of [Cancel] (writer.rs:65-70); an unexpected session stream is reset with the
    error's code (173). *)
Definition run_control (r : reader) : dispatched :=
  match reader_decode control_type_decode r with
  | (AOk CSession, _) =>
      Refused (UnexpectedStream CSession)
        (match to_code Release (UnexpectedStream CSession) with Val c => c | Panic => 0 end)
  | (AOk CAnnounce, r) => ToAnnounce r
  | (AOk CSubscribe, r) => ToSubscribe r
  | (AErr e, _) => Refused e (match to_code Release Cancel with Val c => c | Panic => 0 end)
  | (APending, _) => Undecided
  | (AFuel, _) => DispatchFuel
  end.

(** mod.rs:138-143 [run_data].  A failed decode drops the receive half without a code; [0] is what the
    transport then sends. *)
Definition run_data (r : reader) : dispatched :=
  match reader_decode data_type_decode r with
  | (AOk DGroup, r) => ToGroup r
  | (AErr e, _) => Refused e 0
  | (APending, _) => Undecided
  | (AFuel, _) => DispatchFuel
  end.
