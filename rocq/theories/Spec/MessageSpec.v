(** All message kinds as one type, their well-formedness, and what it means for a codec to be
    faithful.  Only the types of the model and its encode/decode entry points are used. *)
From Coq Require Import NArith ZArith List.
From Coq Require Import Init.Byte Strings.Byte.
From Verif.Model Require Import Base Coding Message.
From Verif.Spec Require Import CodingSpec.
Import ListNotations.
Open Scope N_scope.

Inductive kind :=
| KU8 | KI8 | KU32 | KU64 | KString | KByteVec | KBlob | KDuration
| KAnnounce | KAnnounceRequest | KExtensions | KFrame | KGroup | KSessionInfo
| KVersion | KVersions | KClientSetup | KServerSetup | KControl | KData | KSubscribe | KSubscribeOk.

Definition payload (k : kind) : Type :=
  match k with
  | KU8 => byte | KI8 => Z | KU32 => N | KU64 => N | KString => bytes | KByteVec => bytes
  | KBlob => bytes | KDuration => N
  | KAnnounce => announce | KAnnounceRequest => bytes | KExtensions => extensions
  | KFrame => N | KGroup => group_header | KSessionInfo => option N
  | KVersion => N | KVersions => list N | KClientSetup => client_setup | KServerSetup => server_setup
  | KControl => control_type | KData => data_type | KSubscribe => subscribe | KSubscribeOk => byte
  end.

Definition encode_kind (k : kind) : encoder (payload k) :=
  match k with
  | KU8 => u8_encode | KI8 => i8_encode | KU32 => u32_encode | KU64 => u64_encode
  | KString => string_encode | KByteVec => vec_encode u8_encode | KBlob => blob_encode
  | KDuration => duration_encode
  | KAnnounce => announce_encode | KAnnounceRequest => announce_request_encode
  | KExtensions => extensions_encode
  | KFrame => frame_header_encode | KGroup => group_header_encode | KSessionInfo => session_info_encode
  | KVersion => version_encode | KVersions => versions_encode
  | KClientSetup => client_setup_encode | KServerSetup => server_setup_encode
  | KControl => control_type_encode | KData => data_type_encode
  | KSubscribe => subscribe_encode | KSubscribeOk => subscribe_ok_encode
  end.

Definition decode_kind (w : N) (k : kind) : decoder (payload k) :=
  match k with
  | KU8 => u8_decode | KI8 => i8_decode | KU32 => u32_decode | KU64 => u64_decode
  | KString => string_decode w | KByteVec => vec_decode w u8_decode | KBlob => blob_decode w
  | KDuration => duration_decode
  | KAnnounce => announce_decode w | KAnnounceRequest => announce_request_decode w
  | KExtensions => extensions_decode w
  | KFrame => frame_header_decode | KGroup => group_header_decode | KSessionInfo => session_info_decode
  | KVersion => version_decode | KVersions => versions_decode
  | KClientSetup => client_setup_decode w | KServerSetup => server_setup_decode w
  | KControl => control_type_decode | KData => data_type_decode
  | KSubscribe => subscribe_decode w | KSubscribeOk => subscribe_ok_decode
  end.

(** Values a 62-bit integer field can hold. *)
Definition ok_int (n : N) : Prop := n < 2 ^ 62.
(** Byte strings whose length the peer can represent. *)
Definition ok_bytes (w : N) (s : bytes) : Prop :=
  N.of_nat (length s) < 2 ^ w /\ N.of_nat (length s) < 2 ^ 62.
(** Rust strings: UTF-8. *)
Definition ok_text (w : N) (s : bytes) : Prop := ok_bytes w s /\ is_text s.
Definition ok_extensions (w : N) (m : extensions) : Prop :=
  NoDup (map fst m) /\ N.of_nat (length m) < 2 ^ 62 /\
  Forall (fun e => ok_int (fst e) /\ ok_bytes w (snd e)) m.
Definition ok_versions (vs : list N) : Prop := N.of_nat (length vs) < 2 ^ 62 /\ Forall ok_int vs.

Definition wf (w : N) (k : kind) : payload k -> Prop :=
  match k return payload k -> Prop with
  | KU8 => fun _ => True
  | KI8 => fun v => (-128 <= v < 128)%Z
  | KU32 => fun v => v < 2 ^ 32
  | KU64 => ok_int
  | KString => ok_text w
  | KByteVec => ok_bytes w
  | KBlob => ok_bytes w
  | KDuration => fun ns => ns mod 1000 = 0 /\ ns / 1000 < 2 ^ 62    (* whole microseconds *)
  | KAnnounce => fun a => match a with Active s => ok_text w s | Ended s => ok_text w s end
  | KAnnounceRequest => ok_text w
  | KExtensions => ok_extensions w
  | KFrame => ok_int
  | KGroup => fun g => ok_int (gh_subscribe g) /\ ok_int (gh_sequence g)
  | KSessionInfo => fun b => match b with Some n => ok_int n /\ n <> 0 | None => True end
  | KVersion => ok_int
  | KVersions => ok_versions
  | KClientSetup => fun m => ok_versions (cs_versions m) /\ ok_extensions w (cs_extensions m)
  | KServerSetup => fun m => ok_int (ss_version m) /\ ok_extensions w (ss_extensions m)
  | KControl => fun _ => True
  | KData => fun _ => True
  | KSubscribe => fun m =>
      ok_int (sub_id m) /\ ok_text w (sub_broadcast m) /\ ok_text w (sub_track m)
  | KSubscribeOk => fun _ => True
  end.

(** The bytes of a sequence of messages sent back to back. *)
Fixpoint encodes_seq {A} (enc : encoder A) (l : list A) (bs : bytes) : Prop :=
  match l with
  | [] => bs = []
  | a :: l => exists ps rest, enc a = Val ps /\ encodes_seq enc l rest /\ bs = wire ps ++ rest
  end.

(** Lookup in an extension map, whatever its order. *)
Definition maps_to (m : extensions) (k : N) (v : bytes) : Prop := In (k, v) m.
