(** rs/moq/src/message: control and data messages. *)
From Coq Require Import NArith ZArith List.
From Coq Require Import Init.Byte Strings.Byte.
From Verif.Model Require Import Base Coding.
Import ListNotations.
Open Scope N_scope.

(** All length-prefixed decoders take the target's word size. *)
Section Word.
Variable word : N.

(** ** announce.rs *)

(** announce.rs:9-12 *)
Inductive announce := Active (suffix : bytes) | Ended (suffix : bytes).

(** announce.rs:74-94 [AnnounceStatus]: one byte, 0 = Ended, 1 = Active. *)
Definition status_decode : decoder bool :=
  fun r => dbind (u8_decode r) (fun b r =>
    match n_of b with
    | 0 => DOk false r
    | 1 => DOk true r
    | _ => DErr InvalidValue
    end).
Definition status_encode (active : bool) : res (list put) :=
  u8_encode (if active then x01 else x00).

(** announce.rs:23-34 *)
Definition announce_decode : decoder announce :=
  fun r => dbind (status_decode r) (fun active r =>
    if active then dmap Active (string_decode word r)
    else dmap Ended (string_decode word r)).

(** announce.rs:36-49 *)
Definition announce_encode (a : announce) : res (list put) :=
  match a with
  | Active s => eseq (status_encode true) (string_encode s)
  | Ended s => eseq (status_encode false) (string_encode s)
  end.

(** announce.rs:53-69 [AnnounceRequest] is its prefix. *)
Definition announce_request_decode : decoder bytes := string_decode word.
Definition announce_request_encode (prefix : bytes) : res (list put) := string_encode prefix.

(** ** extensions.rs *)

(** The [HashMap<u64, Vec<u8>>] is an association list without duplicate keys; the order is the
    (arbitrary) iteration order. *)
Definition extensions := list (N * bytes).

Definition ext_mem (k : N) (m : extensions) : bool := existsb (fun e => fst e =? k) m.

(** extensions.rs:18-29; entries are kept in arrival order. *)
Fixpoint extensions_loop (fuel : nat) (n : N) (m : extensions) (r : bytes) : dres extensions :=
  match n with
  | 0 => DOk m r
  | _ =>
    match fuel with
    | O => DFuel
    | S fuel =>
      dbind (u64_decode r) (fun kind r =>
      if ext_mem kind m then DErr DupliateParameter
      else dbind (vec_decode word u8_decode r) (fun data r =>
      extensions_loop fuel (N.pred n) (m ++ [(kind, data)]) r))
    end
  end.

Definition extensions_decode : decoder extensions :=
  fun r => dbind (u64_decode r) (fun count r => extensions_loop (S (length r)) count [] r).

(** extensions.rs:33-42; the argument lists the entries in iteration order. *)
Definition extension_entry_encode (e : N * bytes) : res (list put) :=
  eseq (u64_encode (fst e)) (vec_encode u8_encode (snd e)).
Definition extensions_encode (m : extensions) : res (list put) :=
  eseq (u64_encode (len m)) (seq_encode extension_entry_encode m).

(** extensions.rs:45-53 [get]: decode the stored payload; trailing bytes are ignored. *)
Definition extensions_get {E} (id : N) (dec : decoder E) (m : extensions) : option (dres E) :=
  match find (fun e => fst e =? id) m with
  | Some (_, payload) => Some (dec payload)
  | None => None
  end.

(** extensions.rs:55-59 [set]: insert or replace. *)
Definition extensions_set {E} (id : N) (enc : encoder E) (v : E) (m : extensions) : res extensions :=
  match enc v with
  | Panic => Panic
  | Val ps => Val ((id, wire ps) :: filter (fun e => negb (fst e =? id)) m)
  end.

(** ** frame.rs *)
Definition frame_header_decode : decoder N := u64_decode.               (* frame.rs:8-12 *)
Definition frame_header_encode (size : N) : res (list put) := u64_encode size.  (* 14-18 *)

(** ** group.rs *)
Record group_header := GroupHeader { gh_subscribe : N; gh_sequence : N }.
Definition group_header_decode : decoder group_header :=                (* group.rs:12-19 *)
  fun r => dbind (u64_decode r) (fun s r => dbind (u64_decode r) (fun q r => DOk (GroupHeader s q) r)).
Definition group_header_encode (g : group_header) : res (list put) :=    (* group.rs:21-26 *)
  eseq (u64_encode (gh_subscribe g)) (u64_encode (gh_sequence g)).

(** ** session.rs [SessionInfo] *)
Definition session_info_decode : decoder (option N) :=                  (* session.rs:8-17 *)
  fun r => dmap (fun b => match b with 0 => None | b => Some b end) (u64_decode r).
Definition session_info_encode (bitrate : option N) : res (list put) := (* session.rs:19-23 *)
  u64_encode (match bitrate with Some b => b | None => 0 end).

(** ** versions.rs *)
Definition version_lite_00 : N := 0xff0dad00.                           (* versions.rs:40 *)
Definition version_current : N := version_lite_00.                      (* versions.rs:42 *)
Definition version_decode : decoder N := u64_decode.                    (* versions.rs:66-72 *)
Definition version_encode (v : N) : res (list put) := u64_encode v.     (* versions.rs:74-78 *)
Definition versions_decode : decoder (list N) :=                        (* versions.rs:90-103 *)
  fun r => dbind (u64_decode r) (fun count r => decode_times version_decode count r).
Definition versions_encode (vs : list N) : res (list put) :=            (* versions.rs:105-114 *)
  eseq (u64_encode (len vs)) (seq_encode version_encode vs).

(** ** setup.rs *)
Record client_setup := ClientSetup { cs_versions : list N; cs_extensions : extensions }.
Definition client_setup_decode : decoder client_setup :=                (* setup.rs:14-22 *)
  fun r => dbind (versions_decode r) (fun v r => dbind (extensions_decode r) (fun e r =>
    DOk (ClientSetup v e) r)).
Definition client_setup_encode (m : client_setup) : res (list put) :=   (* setup.rs:24-30 *)
  eseq (versions_encode (cs_versions m)) (extensions_encode (cs_extensions m)).

Record server_setup := ServerSetup { ss_version : N; ss_extensions : extensions }.
Definition server_setup_decode : decoder server_setup :=                (* setup.rs:42-50 *)
  fun r => dbind (version_decode r) (fun v r => dbind (extensions_decode r) (fun e r =>
    DOk (ServerSetup v e) r)).
Definition server_setup_encode (m : server_setup) : res (list put) :=   (* setup.rs:52-57 *)
  eseq (version_encode (ss_version m)) (extensions_encode (ss_extensions m)).

(** ** stream.rs *)
Inductive control_type := CSession | CAnnounce | CSubscribe.
Definition control_type_decode : decoder control_type :=                (* stream.rs:10-20 *)
  fun r => dbind (u64_decode r) (fun t r =>
    match t with
    | 0 => DOk CSession r
    | 1 => DOk CAnnounce r
    | 2 => DOk CSubscribe r
    | _ => DErr InvalidValue
    end).
Definition control_type_encode (t : control_type) : res (list put) :=   (* stream.rs:22-31 *)
  u64_encode (match t with CSession => 0 | CAnnounce => 1 | CSubscribe => 2 end).

Inductive data_type := DGroup.
Definition data_type_decode : decoder data_type :=                      (* stream.rs:38-46 *)
  fun r => dbind (u64_decode r) (fun t r =>
    match t with 0 => DOk DGroup r | _ => DErr InvalidValue end).
Definition data_type_encode (t : data_type) : res (list put) :=         (* stream.rs:48-55 *)
  u64_encode (match t with DGroup => 0 end).

(** ** subscribe.rs *)
Record subscribe := Subscribe
  { sub_id : N; sub_broadcast : bytes; sub_track : bytes; sub_priority : byte }.
Definition subscribe_decode : decoder subscribe :=                      (* subscribe.rs:14-28 *)
  fun r =>
    dbind (u64_decode r) (fun id r =>
    dbind (string_decode word r) (fun broadcast r =>
    dbind (string_decode word r) (fun track r =>
    dbind (u8_decode r) (fun priority r =>
    DOk (Subscribe id broadcast track priority) r)))).
Definition subscribe_encode (m : subscribe) : res (list put) :=         (* subscribe.rs:30-37 *)
  eseq (u64_encode (sub_id m))
 (eseq (string_encode (sub_broadcast m))
 (eseq (string_encode (sub_track m)) (u8_encode (sub_priority m)))).

(** [SubscribeOk] is its priority byte (subscribe.rs:39-55). *)
Definition subscribe_ok_decode : decoder byte := u8_decode.
Definition subscribe_ok_encode (priority : byte) : res (list put) := u8_encode priority.

End Word.
