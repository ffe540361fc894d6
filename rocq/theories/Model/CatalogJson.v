(** Catalogs and feedback as JSON: the derived [Serialize] and [Deserialize] of rs/hang/src/catalog/{root,location}.rs,
    catalog/video/mod.rs, catalog/audio/mod.rs, rs/hang/src/model/location.rs L10-20, rs/moq/src/model/track.rs L22-27 and
    rs/hang/src/feedback/{root,capabilities}.rs, as serde (version 1) and serde_with (version 3) expand them. *)
From Coq Require Import NArith.
From Coq Require Import Strings.String.
From Coq Require Import List Bool.
From Coq Require Import Init.Byte Strings.Byte.
From Verif.Model Require Import Base Map Text Codec Json Native Catalog.
Import ListNotations.
Open Scope N_scope.

(** A value, an error, or a panic. *)
Inductive got (A : Type) := Got (a : A) | Refused | Crash.
Arguments Got {A} a.
Arguments Refused {A}.
Arguments Crash {A}.
Definition gbind {A B} (x : got A) (f : A -> got B) : got B :=
  match x with Got a => f a | Refused => Refused | Crash => Crash end.
Definition gmap {A B} (f : A -> B) (x : got A) : got B := gbind x (fun a => Got (f a)).
Definition of_option {A} (x : option A) : got A := match x with Some a => Got a | None => Refused end.

(** ** What serde's derive makes of a struct *)
(** The members met, in order.  [None]: a key that is no string, or the wrong number of elements; it is met after what comes
    before it was read.  A struct may also be written as an array of its fields in order ([visit_seq]); those without
    [serde(default)] must be there, also options: [least] of them. *)
Definition struct_members (names : list bytes) (least : nat) (v : json) : option (list (option bytes * json)) :=
  match v with
  | JObj es => Some (map (fun e => (string_of (fst e), snd e)) es)
  | JArr vs => Some (combine (map Some names) vs ++
                     (if Nat.ltb (List.length vs) least || Nat.ltb (List.length names) (List.length vs) then [(None, JNull)] else []))
  | _ => None
  end.
(** The loop of [visit_map]: known members are read at once and may not come twice, others are ignored. *)
Fixpoint known (k : bytes) (fields : list (bytes * (json -> got unit))) : option (json -> got unit) :=
  match fields with [] => None | (n, f) :: r => if str_eqb k n then Some f else known k r end.
Fixpoint walk (fields : list (bytes * (json -> got unit))) (seen : list bytes) (es : list (option bytes * json)) : got (list (bytes * json)) :=
  match es with
  | [] => Got []
  | (None, _) :: _ => Refused
  | (Some k, v) :: r =>
    match known k fields with
    | None => walk fields seen r
    | Some f =>
      if existsb (str_eqb k) seen then Refused
      else gbind (f v) (fun _ => gbind (walk fields (k :: seen) r) (fun l => Got ((k, v) :: l)))
    end
  end.
Definition struct (fields : list (bytes * (json -> got unit))) (least : nat) (v : json) : got (list (bytes * json)) :=
  match struct_members (map fst fields) least v with Some es => walk fields [] es | None => Refused end.
(** A field once the loop is done (its value was read there; reading it again gives the same): it must be there, or may be
    missing or null ([Option]), or has a default. *)
Fixpoint get (k : bytes) (l : list (bytes * json)) : option json :=
  match l with [] => None | (n, v) :: r => if str_eqb k n then Some v else get k r end.
Definition nullable {A} (f : json -> got A) (v : json) : got (option A) :=
  match v with JNull => Got None | _ => gmap Some (f v) end.
Definition need {A} (l : list (bytes * json)) (k : bytes) (f : json -> got A) : got A :=
  match get k l with Some v => f v | None => Refused end.
Definition default {A} (l : list (bytes * json)) (k : bytes) (f : json -> got A) (d : A) : got A :=
  match get k l with Some v => f v | None => Got d end.
Definition opt {A} (l : list (bytes * json)) (k : bytes) (f : json -> got A) : got (option A) := default l k (nullable f) None.
Definition fld {A} (k : string) (f : json -> got A) : bytes * (json -> got unit) := (text k, fun v => gmap (fun _ => tt) (f v)).

(** ** Leaves *)
Definition read_string (v : json) : got bytes := match v with JStr raw => of_option (string_of raw) | _ => Refused end.
Definition read_uint (max : N) (v : json) : got N := match v with JNum t => of_option (uint_of max t) | _ => Refused end.
Definition u8_max : N := 255.
Definition u32_max : N := 4294967295.
Definition u64_max : N := 18446744073709551615.
Definition read_bool (v : json) : got bool := match v with JBool b => Got b | _ => Refused end.
(** serde_with's [Hex]: either case *)
Definition read_hex (v : json) : got bytes := gbind (read_string v) (fun s => of_option (unhex s)).
(** serde_with's [DisplayFromStr] *)
Definition of_parsed {A} (x : parsed A) : got A :=
  match x with Parsed a => Got a | InvalidCodec | BadNumber => Refused | Panics => Crash end.
Definition read_video_codec (u : unicode) (v : json) : got video := gbind (read_string v) (fun s => of_parsed (parse_video u s)).
Definition read_audio_codec (v : json) : got audio := gbind (read_string v) (fun s => of_parsed (parse_audio s)).
(** [Vec] *)
Fixpoint each {A} (f : json -> got A) (vs : list json) : got (list A) :=
  match vs with [] => Got [] | v :: r => gbind (f v) (fun a => gbind (each f r) (fun l => Got (a :: l))) end.
Definition read_list {A} (f : json -> got A) (v : json) : got (list A) := match v with JArr vs => each f vs | _ => Refused end.
(** [HashMap<u32, _>], in the order of the last entry for each key; the key is a number in quotes (serde_json's [MapKey]). *)
Definition read_key (raw : bytes) : option N :=
  match read_number raw with Some (t, []) => uint_of u32_max t | _ => None end.
Definition map_put {A} (k : N) (a : A) (m : list (N * A)) : list (N * A) := filter (fun e => negb (fst e =? k)) m ++ [(k, a)].
Fixpoint each_entry {A} (f : json -> got A) (es : list (bytes * json)) (m : list (N * A)) : got (list (N * A)) :=
  match es with
  | [] => Got m
  | (raw, v) :: r => gbind (of_option (read_key raw)) (fun k => gbind (f v) (fun a => each_entry f r (map_put k a m)))
  end.
Definition read_map {A} (f : json -> got A) (v : json) : got (list (N * A)) := match v with JObj es => each_entry f es [] | _ => Refused end.

(** ** Printing *)
Definition j_string (s : bytes) : json := JStr (escape s).
Definition j_uint (n : N) : json := JNum (show 10 n).
(** A member, left out if there is none ([skip_serializing_none]). *)
Definition member (k : string) (v : json) : list (bytes * json) := [(text k, v)].
Definition optional {A} (k : string) (f : A -> json) (o : option A) : list (bytes * json) :=
  match o with Some a => member k (f a) | None => [] end.
Definition nonempty {A} (k : string) (f : A -> json) (l : list A) : list (bytes * json) :=
  match l with [] => [] | _ => member k (JArr (map f l)) end.
Definition j_map {A} (f : A -> json) (m : list (N * A)) : json := JObj (map (fun e => (show 10 (fst e), f (snd e))) m).

(** ** Track *)
(** moq/src/model/track.rs L22-27 *)
Record track_info := TrackInfo { ti_name : bytes; ti_priority : N }.
Definition read_track (v : json) : got track_info :=
  gbind (struct [fld "name" read_string; fld "priority" (read_uint u8_max)] 2 v) (fun l =>
  gbind (need l (text "name") read_string) (fun n =>
  gbind (need l (text "priority") (read_uint u8_max)) (fun p => Got (TrackInfo n p)))).
Definition j_track (t : track_info) : json := JObj (member "name" (j_string (ti_name t)) ++ member "priority" (j_uint (ti_priority t))).

Section Floats.
(** f64 and f32; their text, [None] if not finite (written as null); the number of a text, [None] if out of range.
    [f32_0], [f32_1]: the defaults of [Position]. *)
Context {F64 F32 : Type} (f64_text : F64 -> option bytes) (f64_of : bytes -> option F64)
  (f32_text : F32 -> option bytes) (f32_of : bytes -> option F32) (f32_0 f32_1 : F32) (u : unicode).
Definition read_f64 (v : json) : got F64 := match v with JNum t => of_option (f64_of t) | _ => Refused end.
Definition read_f32 (v : json) : got F32 := match v with JNum t => of_option (f32_of t) | _ => Refused end.
Definition j_f64 (x : F64) : json := match f64_text x with Some t => JNum t | None => JNull end.
Definition j_f32 (x : F32) : json := match f32_text x with Some t => JNum t | None => JNull end.

(** catalog/video/mod.rs L36-88 *)
Record video_config := VideoConfig {
  vc_codec : video; vc_description : option bytes; vc_width : option N; vc_height : option N; vc_ratio_width : option N;
  vc_ratio_height : option N; vc_bitrate : option N; vc_framerate : option F64; vc_latency : option bool;
  vc_rotation : option F64; vc_flip : option bool }.
Definition read_video_config (v : json) : got video_config :=
  gbind (struct [fld "codec" (read_video_codec u); fld "description" (nullable read_hex); fld "codedWidth" (nullable (read_uint u32_max));
                 fld "codedHeight" (nullable (read_uint u32_max)); fld "displayRatioWidth" (nullable (read_uint u32_max));
                 fld "displayRatioHeight" (nullable (read_uint u32_max)); fld "bitrate" (nullable (read_uint u64_max));
                 fld "framerate" (nullable read_f64); fld "optimizeForLatency" (nullable read_bool); fld "rotation" (nullable read_f64);
                 fld "flip" (nullable read_bool)] 6 v) (fun l =>
  gbind (need l (text "codec") (read_video_codec u)) (fun codec =>
  gbind (opt l (text "description") read_hex) (fun description =>
  gbind (opt l (text "codedWidth") (read_uint u32_max)) (fun width =>
  gbind (opt l (text "codedHeight") (read_uint u32_max)) (fun height =>
  gbind (opt l (text "displayRatioWidth") (read_uint u32_max)) (fun rwidth =>
  gbind (opt l (text "displayRatioHeight") (read_uint u32_max)) (fun rheight =>
  gbind (opt l (text "bitrate") (read_uint u64_max)) (fun bitrate =>
  gbind (opt l (text "framerate") read_f64) (fun framerate =>
  gbind (opt l (text "optimizeForLatency") read_bool) (fun latency =>
  gbind (opt l (text "rotation") read_f64) (fun rotation =>
  gbind (opt l (text "flip") read_bool) (fun flip =>
  Got (VideoConfig codec description width height rwidth rheight bitrate framerate latency rotation flip))))))))))))).
Definition j_video_config (c : video_config) : json := JObj (
  member "codec" (j_string (show_video (vc_codec c))) ++
  optional "description" (fun d => j_string (hex d)) (vc_description c) ++
  optional "codedWidth" j_uint (vc_width c) ++
  optional "codedHeight" j_uint (vc_height c) ++
  optional "displayRatioWidth" j_uint (vc_ratio_width c) ++
  optional "displayRatioHeight" j_uint (vc_ratio_height c) ++
  optional "bitrate" j_uint (vc_bitrate c) ++
  optional "framerate" j_f64 (vc_framerate c) ++
  optional "optimizeForLatency" JBool (vc_latency c) ++
  optional "rotation" j_f64 (vc_rotation c) ++
  optional "flip" JBool (vc_flip c)).

(** catalog/video/mod.rs L18-28 *)
Record video_info := VideoInfo { vi_track : track_info; vi_config : video_config }.
Definition read_video (v : json) : got video_info :=
  gbind (struct [fld "track" read_track; fld "config" read_video_config] 2 v) (fun l =>
  gbind (need l (text "track") read_track) (fun t =>
  gbind (need l (text "config") read_video_config) (fun c => Got (VideoInfo t c)))).
Definition j_video (v : video_info) : json := JObj (member "track" (j_track (vi_track v)) ++ member "config" (j_video_config (vi_config v))).

(** catalog/audio/mod.rs L24-51 *)
Record audio_config := AudioConfig {
  ac_codec : audio; ac_rate : N; ac_channels : N; ac_bitrate : option N; ac_description : option bytes }.
Definition read_audio_config (v : json) : got audio_config :=
  gbind (struct [fld "codec" read_audio_codec; fld "sampleRate" (read_uint u32_max); fld "numberOfChannels" (read_uint u32_max);
                 fld "bitrate" (nullable (read_uint u64_max)); fld "description" (nullable read_hex)] 3 v) (fun l =>
  gbind (need l (text "codec") read_audio_codec) (fun codec =>
  gbind (need l (text "sampleRate") (read_uint u32_max)) (fun rate =>
  gbind (need l (text "numberOfChannels") (read_uint u32_max)) (fun channels =>
  gbind (opt l (text "bitrate") (read_uint u64_max)) (fun bitrate =>
  gbind (opt l (text "description") read_hex) (fun description =>
  Got (AudioConfig codec rate channels bitrate description))))))).
Definition j_audio_config (c : audio_config) : json := JObj (
  member "codec" (j_string (show_audio (ac_codec c))) ++
  member "sampleRate" (j_uint (ac_rate c)) ++
  member "numberOfChannels" (j_uint (ac_channels c)) ++
  optional "bitrate" j_uint (ac_bitrate c) ++
  optional "description" (fun d => j_string (hex d)) (ac_description c)).
(** catalog/audio/mod.rs L12-21 *)
Record audio_info := AudioInfo { ai_track : track_info; ai_config : audio_config }.
Definition read_audio (v : json) : got audio_info :=
  gbind (struct [fld "track" read_track; fld "config" read_audio_config] 2 v) (fun l =>
  gbind (need l (text "track") read_track) (fun t =>
  gbind (need l (text "config") read_audio_config) (fun c => Got (AudioInfo t c)))).
Definition j_audio (v : audio_info) : json := JObj (member "track" (j_track (ai_track v)) ++ member "config" (j_audio_config (ai_config v))).

(** model/location.rs L10-30 *)
Record position := Position { po_x : F32; po_y : F32; po_zoom : F32 }.
Definition read_position (v : json) : got position :=
  gbind (struct [fld "x" read_f32; fld "y" read_f32; fld "zoom" read_f32] 0 v) (fun l =>
  gbind (default l (text "x") read_f32 f32_0) (fun x =>
  gbind (default l (text "y") read_f32 f32_0) (fun y =>
  gbind (default l (text "zoom") read_f32 f32_1) (fun z => Got (Position x y z))))).
Definition j_position (p : position) : json :=
  JObj (member "x" (j_f32 (po_x p)) ++ member "y" (j_f32 (po_y p)) ++ member "zoom" (j_f32 (po_zoom p))).

(** catalog/location.rs L7-26.  There [skip_serializing_none] comes after [derive], whether it has any effect then depends on
    the compiler: [nulls] if it has none. *)
Record location := Location { lo_initial : option position; lo_updates : option track_info; lo_peers : list (N * track_info); lo_handle : option N }.
Definition read_location (v : json) : got location :=
  gbind (struct [fld "initial" (nullable read_position); fld "updates" (nullable read_track); fld "peers" (read_map read_track);
                 fld "handle" (nullable (read_uint u32_max))] 0 v) (fun l =>
  gbind (opt l (text "initial") read_position) (fun initial =>
  gbind (opt l (text "updates") read_track) (fun updates =>
  gbind (default l (text "peers") (read_map read_track) []) (fun peers =>
  gbind (opt l (text "handle") (read_uint u32_max)) (fun handle => Got (Location initial updates peers handle)))))).
Definition perhaps {A} (nulls : bool) (k : string) (f : A -> json) (o : option A) : list (bytes * json) :=
  match o with Some a => member k (f a) | None => if nulls then member k JNull else [] end.
Definition j_location (nulls : bool) (o : location) : json := JObj (
  perhaps nulls "initial" j_position (lo_initial o) ++
  perhaps nulls "updates" j_track (lo_updates o) ++
  match lo_peers o with [] => [] | m => member "peers" (j_map j_track m) end ++
  perhaps nulls "handle" j_uint (lo_handle o)).

(** catalog/root.rs L13-28 *)
Definition catalog_info := @catalog video_info audio_info location.
Definition read_catalog (v : json) : got catalog_info :=
  gbind (struct [fld "video" (read_list read_video); fld "audio" (read_list read_audio); fld "location" (nullable read_location)] 0 v) (fun l =>
  gbind (default l (text "video") (read_list read_video) []) (fun vs =>
  gbind (default l (text "audio") (read_list read_audio) []) (fun aus =>
  gbind (opt l (text "location") read_location) (fun o => Got (Catalog vs aus o))))).
Definition j_catalog (nulls : bool) (c : catalog_info) : json := JObj (
  nonempty "video" j_video (ct_video c) ++ nonempty "audio" j_audio (ct_audio c) ++
  optional "location" (j_location nulls) (ct_location c)).

(** root.rs L33-39 [from_str], [from_slice]; L45-47, L53-55 [to_string], [to_vec] *)
Definition parse_catalog (s : bytes) : got catalog_info := match read_json s with Some v => read_catalog v | None => Refused end.
Definition print_catalog (nulls : bool) (c : catalog_info) : bytes := print (j_catalog nulls c).
End Floats.

(** ** Feedback: feedback/capabilities.rs, feedback/root.rs L10-21; every field has a default *)
Record codecs (C : Type) := Codecs { cd_hardware : list C; cd_software : list C; cd_unsupported : list C }.
Arguments Codecs {C} _ _ _.
Arguments cd_hardware {C} _.
Arguments cd_software {C} _.
Arguments cd_unsupported {C} _.
Definition read_codecs {C} (f : json -> got C) (v : json) : got (codecs C) :=
  gbind (struct [fld "hardware" (read_list f); fld "software" (read_list f); fld "unsupported" (read_list f)] 0 v) (fun l =>
  gbind (default l (text "hardware") (read_list f) []) (fun a =>
  gbind (default l (text "software") (read_list f) []) (fun b =>
  gbind (default l (text "unsupported") (read_list f) []) (fun c => Got (Codecs a b c))))).
Definition j_codecs {C} (f : C -> json) (c : codecs C) : json := JObj (
  member "hardware" (JArr (map f (cd_hardware c))) ++ member "software" (JArr (map f (cd_software c))) ++
  member "unsupported" (JArr (map f (cd_unsupported c)))).
Record capabilities := Capabilities { cp_video : codecs video; cp_audio : codecs audio }.
Definition read_capabilities (u : unicode) (v : json) : got capabilities :=
  gbind (struct [fld "video" (read_codecs (read_video_codec u)); fld "audio" (read_codecs read_audio_codec)] 0 v) (fun l =>
  gbind (default l (text "video") (read_codecs (read_video_codec u)) (Codecs [] [] [])) (fun a =>
  gbind (default l (text "audio") (read_codecs read_audio_codec) (Codecs [] [] [])) (fun b => Got (Capabilities a b)))).
Definition j_capabilities (c : capabilities) : json := JObj (
  member "video" (j_codecs (fun x => j_string (show_video x)) (cp_video c)) ++
  member "audio" (j_codecs (fun x => j_string (show_audio x)) (cp_audio c))).
Record feedback := Feedback { fb_capabilities : option capabilities; fb_locations : list (N * track_info) }.
Definition read_feedback (u : unicode) (v : json) : got feedback :=
  gbind (struct [fld "capabilities" (nullable (read_capabilities u)); fld "locations" (read_map read_track)] 0 v) (fun l =>
  gbind (opt l (text "capabilities") (read_capabilities u)) (fun a =>
  gbind (default l (text "locations") (read_map read_track) []) (fun b => Got (Feedback a b)))).
Definition j_feedback (f : feedback) : json := JObj (
  optional "capabilities" j_capabilities (fb_capabilities f) ++
  match fb_locations f with [] => [] | m => member "locations" (j_map j_track m) end).
Definition parse_feedback (u : unicode) (s : bytes) : got feedback := match read_json s with Some v => read_feedback u v | None => Refused end.
Definition print_feedback (f : feedback) : bytes := print (j_feedback f).
