(** js/hang/src/catalog/{root,video,audio,track,location}.ts: which catalogs the JavaScript library accepts, as zod (version 4) checks them.

    Taken as the tree of [Json.json], as JSON.parse reads the text.  Simplified: the keys of an object are compared as they are spelled, without
    escapes; a number is whole if it is spelled with digits only, or with nothing but zeros after the point (what is spelled with a sign or an exponent counts
    as not whole).  The parts that the Rust library does not have (user, chat, capabilities: root.ts:15-17) are taken as accepted. *)
From Coq Require Import NArith.
From Coq Require Import Strings.String.
From Coq Require Import List Bool.
From Coq Require Import Init.Byte Strings.Byte.
From Verif.Model Require Import Base Map Text Codec Json Native CatalogJson.
Import ListNotations.
Open Scope N_scope.

(** z.string, z.number, z.boolean, z.uint32 (a whole number not above 2^32 - 1) *)
Definition z_string (v : json) : bool := match v with JStr _ => true | _ => false end.
Definition z_number (v : json) : bool := match v with JNum _ => true | _ => false end.
Definition z_boolean (v : json) : bool := match v with JBool _ => true | _ => false end.
Definition zeros (s : bytes) : bool := match s with [] => true | b :: r => Byte.eqb b dot && negb (str_eqb r []) && forallb (Byte.eqb zero) r end.
Definition z_uint32 (v : json) : bool :=
  match v with
  | JNum t => let (d, r) := span is_digit t in zeros r && match uint_of u32_max d with Some _ => true | None => false end
  | _ => false
  end.
Definition z_array (p : json -> bool) (v : json) : bool := match v with JArr l => forallb p l | _ => false end.
(** z.record(z.string(), p) *)
Definition z_record (p : json -> bool) (v : json) : bool := match v with JObj es => forallb (fun e => p (snd e)) es | _ => false end.

(** A member of an object; of several with the same key the last one. *)
Fixpoint z_get (k : bytes) (es : list (bytes * json)) : option json :=
  match es with
  | [] => None
  | (n, v) :: r => match z_get k r with Some w => Some w | None => if str_eqb k n then Some v else None end
  end.
Definition z_need (es : list (bytes * json)) (k : string) (p : json -> bool) : bool := match z_get (text k) es with Some v => p v | None => false end.
(** z.optional: may be missing, but not null *)
Definition z_optional (es : list (bytes * json)) (k : string) (p : json -> bool) : bool := match z_get (text k) es with Some v => p v | None => true end.
(** z.object: other members are left out of the result *)
Definition z_object (p : list (bytes * json) -> bool) (v : json) : bool := match v with JObj es => p es | _ => false end.

(** track.ts:3-6 *)
Definition z_track : json -> bool := z_object (fun es => z_need es "name" z_string && z_need es "priority" z_uint32).
(** video.ts:5-42 *)
Definition z_video_config : json -> bool := z_object (fun es =>
  z_need es "codec" z_string && z_optional es "description" z_string &&
  z_optional es "codedWidth" z_uint32 && z_optional es "codedHeight" z_uint32 &&
  z_optional es "displayRatioWidth" z_uint32 && z_optional es "displayRatioHeight" z_uint32 &&
  z_optional es "framerate" z_uint32 && z_optional es "bitrate" z_uint32 &&
  z_optional es "optimizeForLatency" z_boolean && z_optional es "rotation" z_number && z_optional es "flip" z_boolean).
(** video.ts:46-52 *)
Definition z_video : json -> bool := z_object (fun es => z_need es "track" z_track && z_need es "config" z_video_config).
(** audio.ts:7-25 *)
Definition z_audio_config : json -> bool := z_object (fun es =>
  z_need es "codec" z_string && z_optional es "description" z_string && z_need es "sampleRate" z_uint32 &&
  z_need es "numberOfChannels" z_uint32 && z_optional es "bitrate" z_uint32).
(** audio.ts:27-33 *)
Definition z_audio : json -> bool := z_object (fun es => z_need es "track" z_track && z_need es "config" z_audio_config).
(** location.ts:4-19 *)
Definition z_position : json -> bool := z_object (fun es =>
  z_optional es "x" z_number && z_optional es "y" z_number && z_optional es "z" z_number && z_optional es "scale" z_number).
(** location.ts:21-39 *)
Definition z_location : json -> bool := z_object (fun es =>
  z_optional es "initial" z_position && z_optional es "updates" z_track && z_optional es "peering" z_boolean &&
  z_optional es "peers" (z_record z_track)).
(** root.ts:11-18 *)
Definition z_root : json -> bool := z_object (fun es =>
  z_optional es "video" (z_array z_video) && z_optional es "audio" (z_array z_audio) && z_optional es "location" z_location).
(** root.ts:27-37 [decode]: whether it returns *)
Definition js_decodes (s : bytes) : bool := match read_json s with Some v => z_root v | None => false end.
