(** What a handshake and the first integer of a stream mean. *)
From Coq Require Import NArith List Bool.
From Coq Require Import Init.Byte Strings.Byte.
From Verif.Model Require Import Base Coding Message ErrorCode Stream.
From Verif.Spec Require Import CodingSpec MessageSpec StreamSpec.
Import ListNotations.
Open Scope N_scope.

(** The protocol version this library implements. *)
Definition our_version : N := 4279086336.  (* 0xff0dad00 *)

(** [bs] starts with the integer [v], followed by [rest]. *)
Definition starts_with (v : N) (bs rest : bytes) : Prop := exists a, is_varint v a /\ bs = a ++ rest.

(** The bytes so far do not hold a complete integer. *)
Definition no_integer (bs : bytes) : Prop := forall v rest, ~ starts_with v bs rest.

(** A server setup naming [v] at the start of [bs]. *)
Definition replies (w : N) (v : N) (bs rest : bytes) : Prop :=
  exists ext, decode_kind w KServerSetup bs = DOk (ServerSetup v ext) rest.

(** A session request offering the versions [vs]. *)
Definition offers (w : N) (vs : list N) (bs rest : bytes) : Prop :=
  exists ext rest0, starts_with 0 bs rest0 /\ decode_kind w KClientSetup rest0 = DOk (ClientSetup vs ext) rest.

(** The bytes of a session request offering exactly [vs] with no extensions, and of the server's
    answer. *)
Definition request_bytes (vs : list N) (bs : bytes) : Prop :=
  exists t c, encode_kind KControl CSession = Val t /\ encode_kind KClientSetup (ClientSetup vs []) = Val c /\
    bs = wire t ++ wire c.
Definition reply_bytes (v : N) (bs : bytes) : Prop :=
  exists c, encode_kind KServerSetup (ServerSetup v []) = Val c /\ bs = wire c.

(** [r] has received exactly the bytes [s] has sent (cut anyhow), and the stream stays open. *)
Definition carries (s : send) (r : reader) : Prop := content r = sd_sent s /\ ends r = Open.
