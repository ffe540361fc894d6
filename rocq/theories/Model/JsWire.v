(** js/moq/src/wire: how the JavaScript library reads and writes the messages of the protocol; js/moq/src/connection.ts: its
    handshake and its loops accepting streams; js/hang/src/container: its media frames and positions.
    A number is a natural number (a [number] that is fractional or not finite is not modelled), a [bigint] too.  A string is its
    UTF-8 bytes (a JavaScript string with an unpaired surrogate is not modelled).  An incoming stream is the [reader] of
    Stream.v: what is buffered, and the pieces still to come. *)
From Coq Require Import NArith ZArith List Bool.
From Coq Require Import Init.Byte Strings.Byte.
From Verif.Model Require Import Base Coding Message Stream.
Import ListNotations.
Open Scope N_scope.

(** An awaited promise: it resolved, was rejected ([throw]), or never settles with what has arrived so far.  [JFuel] marks
    exhausted loop fuel and is proved unreachable. *)
Inductive jout (A : Type) := JOk (a : A) | JThrow | JWait | JFuel.
Arguments JOk {A} a.
Arguments JThrow {A}.
Arguments JWait {A}.
Arguments JFuel {A}.

Definition js (A : Type) : Type := reader -> jout A * reader.
Definition jret {A} (a : A) : js A := fun r => (JOk a, r).
Definition jthrow {A} : js A := fun r => (JThrow, r).
Definition jbind {A B} (m : js A) (f : A -> js B) : js B := fun r =>
  match m r with
  | (JOk a, r) => f a r
  | (JThrow, r) => (JThrow, r)
  | (JWait, r) => (JWait, r)
  | (JFuel, r) => (JFuel, r)
  end.

(** * wire/stream.ts, Reader *)

(** stream.ts:94-121 [#fill], [#fillTo].  [read()] rejects once the stream was reset (95). *)
Fixpoint fill_to (n : N) (buf : bytes) (cs : list bytes) (e : ending) : jout unit * reader :=
  if len buf <? n then                                                   (* 116 *)
    match cs with
    | c :: cs => fill_to n (buf ++ c) cs e                               (* 100-109 *)
    | [] => (match e with Fin | Reset => JThrow | Open => JWait end,     (* 118 *)
             Reader buf (Recv [] e))
    end
  else (JOk tt, Reader buf (Recv cs e)).
Definition j_fill (n : N) : js unit := fun r => fill_to n (rd_buf r) (rc_chunks (rd_stream r)) (rc_end (rd_stream r)).

(** stream.ts:124-129 [#slice] of at most what is buffered *)
Definition j_slice (n : N) : js bytes := fun r => (JOk (take n (rd_buf r)), Reader (drop n (rd_buf r)) (rd_stream r)).

(** stream.ts:131-136 *)
Definition j_read (n : N) : js bytes :=
  if n =? 0 then jret [] else jbind (j_fill n) (fun _ => j_slice n).

(** stream.ts:155-158 *)
Definition j_u8 : js N :=
  jbind (j_fill 1) (fun _ => jbind (j_slice 1) (fun s => jret (match s with b :: _ => n_of b | [] => 0 end))).

(** stream.ts:172-173: the two bits in front of what is buffered *)
Definition j_size : js N :=
  jbind (j_fill 1) (fun _ r => (JOk (match rd_buf r with b :: _ => N.shiftr (N.land (n_of b) 0xc0) 6 | [] => 0 end), r)).

(** [DataView.getInt16] *)
Definition get_int16 (bs : bytes) : Z :=
  let u := Z.of_N (be_value bs) in if (u <? 0x8000)%Z then u else (u - 0x10000)%Z.

(** stream.ts:171-198 *)
Definition j_u62 : js N :=
  jbind j_size (fun size =>
  if size =? 0 then jbind (j_slice 1) (fun s => jret (N.land (be_value s) 0x3f))                              (* 175-178 *)
  else if size =? 1 then
    jbind (j_fill 2) (fun _ => jbind (j_slice 2) (fun s => jret (Z.to_N (Z.land (get_int16 s) 0x3fff))))      (* 179-185 *)
  else if size =? 2 then
    jbind (j_fill 4) (fun _ => jbind (j_slice 4) (fun s => jret (N.land (be_value s) 0x3fffffff)))            (* 186-192 *)
  else jbind (j_fill 8) (fun _ => jbind (j_slice 8) (fun s => jret (N.land (be_value s) 0x3fffffffffffffff)))). (* 193-197 *)

(** Number.MAX_SAFE_INTEGER *)
Definition max_u53 : N := 9007199254740991.

(** stream.ts:161-168 *)
Definition j_u53 : js N := jbind j_u62 (fun v => if max_u53 <? v then jthrow else jret v).

(** stream.ts:201-204: [false] if there is more *)
Definition j_done : js bool := fun r =>
  match rd_buf r with
  | _ :: _ => (JOk false, r)
  | [] =>
    match rc_chunks (rd_stream r) with
    | c :: cs => (JOk false, Reader c (Recv cs (rc_end (rd_stream r))))
    | [] => (match rc_end (rd_stream r) with Fin => JOk true | Reset => JThrow | Open => JWait end, r)
    end
  end.

Section Text.
(** What a [TextDecoder] makes of bytes that are not UTF-8 (the Encoding standard: some text with U+FFFD in it). *)
Variable lossy : bytes -> bytes.

Definition bom : bytes := [xef; xbb; xbf].
(** [new TextDecoder().decode]: neither [fatal] nor [ignoreBOM], so a byte order mark in front is dropped. *)
Definition text_decode (bs : bytes) : bytes :=
  let bs := match bs with
            | a :: b :: c :: r =>
                if (n_of a =? 0xef) && (n_of b =? 0xbb) && (n_of c =? 0xbf) then r else bs
            | _ => bs
            end in
  if utf8_valid bs then bs else lossy bs.

(** stream.ts:145-153; no caller gives a maximum *)
Definition j_string : js bytes := jbind j_u53 (fun n => jbind (j_read n) (fun b => jret (text_decode b))).

(** * The messages, read *)

(** announce.ts:17-21 *)
Definition j_announce : js (bytes * bool) :=
  jbind j_u53 (fun a => jbind j_string (fun suffix => jret (suffix, a =? 1))).
(** announce.ts:23-26 *)
Definition j_announce_maybe : js (option (bytes * bool)) :=
  jbind j_done (fun d => if d then jret None else jbind j_announce (fun a => jret (Some a))).
(** announce.ts:41-44 *)
Definition j_interest : js bytes := j_string.

(** subscribe.ts: [SubscribeUpdate], and [SubscribeOk] (66-69), are their priority *)
Definition j_update : js N := j_u53.                                     (* 14-17 *)
Definition j_update_maybe : js (option N) :=                             (* 19-22 *)
  jbind j_done (fun d => if d then jret None else jbind j_update (fun a => jret (Some a))).
Definition j_subscribe_ok : js N := j_u53.

(** subscribe.ts:25-37 *)
Record jsubscribe := JSubscribe { js_id : N; js_broadcast : bytes; js_track : bytes; js_priority : N }.
(** subscribe.ts:46-52 *)
Definition j_subscribe : js jsubscribe :=
  jbind j_u62 (fun id => jbind j_string (fun b => jbind j_string (fun t => jbind j_update (fun p =>
  jret (JSubscribe id b t p))))).

(** group.ts:19-21; the header's type is that of the Rust side: two numbers *)
Definition j_group : js group_header :=
  jbind j_u62 (fun s => jbind j_u53 (fun q => jret (GroupHeader s q))).
(** group.ts:58-62 *)
Definition j_frame : js bytes := jbind j_u53 (fun n => j_read n).

(** session.ts:52-62; the entries of a [Map] in the order of insertion *)
Fixpoint j_ext_loop (fuel : nat) (n : N) (m : extensions) : js extensions :=
  match n with
  | 0 => jret m
  | _ =>
    match fuel with
    | O => fun r => (JFuel, r)
    | S fuel =>
      jbind j_u62 (fun id => jbind j_u53 (fun size => jbind (j_read size) (fun value =>
      if ext_mem id m then jthrow                                        (* 57-59 *)
      else j_ext_loop fuel (N.pred n) (m ++ [(id, value)]))))
    end
  end.
(** Bytes that can still come: every round of a loop takes at least one. *)
Definition j_left (r : reader) : nat := (length (rd_buf r) + length (concat (rc_chunks (rd_stream r))))%nat.
(** session.ts:48-65 *)
Definition j_extensions : js extensions :=
  jbind j_u53 (fun n r => j_ext_loop (S (j_left r)) n [] r).
(** session.ts:91-93 *)
Fixpoint j_versions_loop (fuel : nat) (n : N) (vs : list N) : js (list N) :=
  match n with
  | 0 => jret vs
  | _ =>
    match fuel with
    | O => fun r => (JFuel, r)
    | S fuel => jbind j_u53 (fun v => j_versions_loop fuel (N.pred n) (vs ++ [v]))
    end
  end.
Definition j_versions : js (list N) := jbind j_u53 (fun n r => j_versions_loop (S (j_left r)) n [] r).
(** session.ts:88-97 *)
Definition j_client : js client_setup :=
  jbind j_versions (fun vs => jbind j_extensions (fun x => jret (ClientSetup vs x))).
(** session.ts:114-118 *)
Definition j_server : js server_setup :=
  jbind j_u53 (fun v => jbind j_extensions (fun x => jret (ServerSetup v x))).
(** session.ts:132-135 *)
Definition j_info : js N := j_u53.
(** session.ts:137-140 *)
Definition j_info_maybe : js (option N) :=
  jbind j_done (fun d => if d then jret None else jbind j_info (fun a => jret (Some a))).

(** * Streams opened by the peer *)

Inductive jbidi := BiClient (m : client_setup) | BiInterest (prefix : bytes) | BiSubscribe (m : jsubscribe).

(** stream.ts:34-48 [Stream.accept], once there is a stream *)
Definition j_accept_bi : js jbidi :=
  jbind j_u8 (fun t =>
  if t =? 0 then jbind j_client (fun m => jret (BiClient m))
  else if t =? 1 then jbind j_interest (fun m => jret (BiInterest m))
  else if t =? 2 then jbind j_subscribe (fun m => jret (BiSubscribe m))
  else jthrow).
(** stream.ts:222-232 [Reader.accept] *)
Definition j_accept_uni : js group_header :=
  jbind j_u8 (fun t => if t =? 0 then j_group else jthrow).

(** connection.ts:177-193 [#runBidis], 213-229 [#runUnis]: streams are accepted one after another, and the header of each is
    awaited before the next is looked at.  For every stream, in the order they come: what is handed to its own task, [None] if
    it never gets one.  A rejected promise leaves the loop (179, 215). *)
Fixpoint accept_loop {A} (acc : js A) (streams : list reader) : list (option (A * reader)) :=
  match streams with
  | [] => []
  | r :: rest =>
      match acc r with
      | (JOk a, r) => Some (a, r) :: accept_loop acc rest
      | _ => map (fun _ => None) streams
      end
  end.

(** subscriber.ts:157-183 [runGroup]: the frames of a group, until the end of the stream.  [unused] (169) ends it early and is
    not modelled here.  Second: how the loop ended. *)
Fixpoint j_frames (fuel : nat) (fs : list bytes) : reader -> list bytes * jout unit :=
  match fuel with
  | O => fun _ => (fs, JFuel)
  | S fuel => fun r =>
      match j_done r with
      | (JOk true, _) => (fs, JOk tt)                                    (* 170, 179 *)
      | (JOk false, r) =>
          match j_frame r with                                           (* 172-173 *)
          | (JOk f, r) => j_frames fuel (fs ++ [f]) r                    (* 176 *)
          | (JThrow, _) => (fs, JThrow)                                  (* 181 *)
          | (JWait, _) => (fs, JWait)
          | (JFuel, _) => (fs, JFuel)
          end
      | (JThrow, _) => (fs, JThrow)
      | (JWait, _) => (fs, JWait)
      | (JFuel, _) => (fs, JFuel)
      end
  end.
(** A unidirectional stream: the header of the group, and its frames. *)
Definition j_group_stream (r : reader) : jout group_header * (list bytes * jout unit) :=
  match j_accept_uni r with
  | (JOk h, r) => (JOk h, j_frames (S (j_left r)) [] r)
  | (x, _) => (x, ([], JFuel))
  end.

(** * wire/stream.ts, Writer.  [None]: it throws. *)

Definition jput : Type := option bytes.
Definition jseq (a b : jput) : jput :=
  match a, b with Some x, Some y => Some (x ++ y) | _, _ => None end.

(** stream.ts:324-387; [DataView.setUintN] keeps the low bits *)
Definition set_vint53 (v : N) : jput :=
  if v <=? 2 ^ 6 - 1 then Some (be_bytes 1 v)
  else if v <=? 2 ^ 14 - 1 then Some (be_bytes 2 (N.lor v 0x4000))
  else if v <=? 2 ^ 30 - 1 then Some (be_bytes 4 (N.lor v 0x80000000))
  else if v <=? max_u53 then Some (be_bytes 8 (N.lor v 0xc000000000000000))
  else None.
Definition set_vint62 (v : N) : bytes :=
  if v <? 2 ^ 6 - 1 then be_bytes 1 v                                    (* 367 *)
  else if v <? 2 ^ 14 - 1 then be_bytes 2 (N.lor v 0x4000)               (* 370 *)
  else if v <=? 2 ^ 30 - 1 then be_bytes 4 (N.lor v 0x80000000)
  else be_bytes 8 (N.lor v 0xc000000000000000).

(** stream.ts:262-271, 273-284, 248-250, 290-294 *)
Definition w_u53 (v : N) : jput := if max_u53 <? v then None else set_vint53 v.
Definition w_u62 (v : N) : jput := Some (set_vint62 v).
Definition w_u8 (v : N) : jput := Some [u8 v].
Definition w_bytes (b : bytes) : jput := Some b.
Definition w_string (s : bytes) : jput := jseq (w_u53 (len s)) (w_bytes s).

(** * The messages, written *)

(** announce.ts:12-15, 37-39 *)
Definition w_announce (suffix : bytes) (active : bool) : jput := jseq (w_u53 (if active then 1 else 0)) (w_string suffix).
Definition w_interest (prefix : bytes) : jput := w_string prefix.
(** subscribe.ts:10-12, 39-44, 62-64 *)
Definition w_update (priority : N) : jput := w_u53 priority.
Definition w_subscribe (m : jsubscribe) : jput :=
  jseq (w_u62 (js_id m)) (jseq (w_string (js_broadcast m)) (jseq (w_string (js_track m)) (w_update (js_priority m)))).
Definition w_subscribe_ok (priority : N) : jput := w_u53 priority.
(** group.ts:14-17, 53-56 *)
Definition w_group (g : group_header) : jput := jseq (w_u62 (gh_subscribe g)) (w_u53 (gh_sequence g)).
Definition w_frame (payload : bytes) : jput := jseq (w_u53 (len payload)) (w_bytes payload).
(** session.ts:39-46 *)
Definition w_entry (e : N * bytes) : jput := jseq (w_u62 (fst e)) (jseq (w_u53 (len (snd e))) (w_bytes (snd e))).
Definition w_extensions (m : extensions) : jput :=
  jseq (w_u53 (len m)) (fold_right (fun e k => jseq (w_entry e) k) (Some []) m).
(** session.ts:79-86, 109-112, 128-130 *)
Definition w_versions (vs : list N) : jput :=
  jseq (w_u53 (len vs)) (fold_right (fun v k => jseq (w_u53 v) k) (Some []) vs).
Definition w_client (m : client_setup) : jput := jseq (w_versions (cs_versions m)) (w_extensions (cs_extensions m)).
Definition w_server (m : server_setup) : jput := jseq (w_u53 (ss_version m)) (w_extensions (ss_extensions m)).
Definition w_info (bitrate : N) : jput := w_u53 bitrate.

(** stream.ts:51-67 [Stream.open] *)
Definition w_open_bi (m : jbidi) : jput :=
  match m with
  | BiClient m => jseq (w_u8 0) (w_client m)
  | BiInterest p => jseq (w_u8 1) (w_interest p)
  | BiSubscribe m => jseq (w_u8 2) (w_subscribe m)
  end.
(** publisher.ts:173-186 [#runGroup] with stream.ts:308-321 [Writer.open]: a whole group *)
Definition w_group_stream (h : group_header) (frames : list bytes) : jput :=
  jseq (w_u8 0) (jseq (w_group h) (fold_right (fun f k => jseq (w_frame f) k) (Some []) frames)).

(** * connection.ts:89-95, the handshake: what is written, and what comes of the answer *)
Definition js_version : N := 0xff0dad00.                                 (* session.ts:13, 16 *)
Definition j_hello : jput := w_open_bi (BiClient (ClientSetup [js_version] [])).
Definition j_connect : js unit :=
  jbind j_server (fun m => if ss_version m =? js_version then jret tt else jthrow).

End Text.

(** * js/hang/src/container *)

(** vint.ts:31-56 [setVint53]: as above, but the timestamp of a chunk may be negative, which nothing refuses; storing into a
    [Uint8Array] keeps the low 8 bits. *)
Definition set_timestamp (t : Z) : jput :=
  if (t <=? 63)%Z then Some [u8 (Z.to_N (t mod 256))]
  else set_vint53 (Z.to_N t).
(** frame.ts:9-18 [encodeFrame] *)
Definition js_encode_frame (data : bytes) (t : Z) : jput := jseq (set_timestamp t) (Some data).

(** vint.ts:8-29 [getVint53].  A frame shorter than its timestamp makes line 12 throw (a negative length).  [round53] is the
    conversion of a large [bigint] to a [number] (23). *)
Definition get_vint53 (round53 : N -> N) (buf : bytes) : option (N * bytes) :=
  let size := N.shiftl 1 (match buf with b :: _ => N.shiftr (N.land (n_of b) 0xc0) 6 | [] => 0 end) in
  if len buf <? size then None
  else
    let view := take size buf in
    Some ((if size =? 1 then N.land (be_value view) 0x3f
           else if size =? 2 then Z.to_N (Z.land (get_int16 view) 0x3fff)
           else if size =? 4 then N.land (be_value view) 0x3fffffff
           else round53 (N.land (be_value view) 0x3fffffffffffffff)), drop size buf).
(** frame.ts:21-24 [decodeFrame]; the payload and the timestamp *)
Definition js_decode_frame (round53 : N -> N) (buf : bytes) : option (N * bytes) := get_vint53 round53 buf.
