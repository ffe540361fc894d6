(** What a JSON value says about a catalog or a feedback.  The names of codecs are those of C58 to C62 ([parse_video],
    [parse_audio]). *)
From Coq Require Import NArith.
From Coq Require Import Strings.String.
From Coq Require Import List Bool.
From Coq Require Import Init.Byte Strings.Byte.
From Verif.Model Require Import Base Text Codec Json Catalog CatalogJson.
From Verif.Spec Require Import CodingSpec CodecSpec NativeSpec JsonSpec.
Import ListNotations.
Open Scope N_scope.

(** ** Structures *)
(** An object whose keys are texts, none of [names] twice; or an array with values for the first of them, at least [least]. *)
Definition structure (names : list bytes) (least : nat) (v : json) : Prop :=
  match v with
  | JObj es =>
    Forall (fun e => exists k, text_of (fst e) k) es /\
    (forall i j e f k, nth_error es i = Some e -> nth_error es j = Some f -> text_of (fst e) k -> text_of (fst f) k -> In k names -> i = j)
  | JArr vs => (least <= List.length vs <= List.length names)%nat
  | _ => False
  end.
(** The value it has for [k]. *)
Definition holds (names : list bytes) (v : json) (k : bytes) (x : json) : Prop :=
  match v with
  | JObj es => exists raw, In (raw, x) es /\ text_of raw k
  | JArr vs => exists i, nth_error names i = Some k /\ nth_error vs i = Some x
  | _ => False
  end.
(** There is a value, and [P] holds of it; there may be one, and null is as good as none; there is a default. *)
Definition has {A} (names : list bytes) (v : json) (k : string) (P : json -> A -> Prop) (a : A) : Prop :=
  exists x, holds names v (text k) x /\ P x a.
Definition may {A} (names : list bytes) (v : json) (k : string) (P : json -> A -> Prop) (o : option A) : Prop :=
  match o with Some a => has names v k P a | None => forall x, holds names v (text k) x -> x = JNull end.
Definition or_else {A} (names : list bytes) (v : json) (k : string) (P : json -> A -> Prop) (d a : A) : Prop :=
  has names v k P a \/ ((forall x, ~ holds names v (text k) x) /\ a = d).

(** ** Leaves *)
Definition is_string (v : json) (s : bytes) : Prop := exists raw, v = JStr raw /\ text_of raw s.
Definition is_uint (max : N) (v : json) (n : N) : Prop := exists t, v = JNum t /\ counts t n /\ n <= max.
Definition is_bool (v : json) (b : bool) : Prop := v = JBool b.
Definition is_hex (v : json) (b : bytes) : Prop := exists s, is_string v s /\ hexes s b.
Definition is_video (u : unicode) (v : json) (c : video) : Prop := exists s, is_string v s /\ parse_video u s = Parsed c.
Definition is_audio (v : json) (c : audio) : Prop := exists s, is_string v s /\ parse_audio s = Parsed c.
Definition is_list {A} (P : json -> A -> Prop) (v : json) (l : list A) : Prop := exists vs, v = JArr vs /\ Forall2 P vs l.
(** The entries of a map: of those with the same key the last one counts. *)
Fixpoint latest {A} (l : list (N * A)) : list (N * A) :=
  match l with [] => [] | e :: r => if existsb (fun f => fst f =? fst e) r then latest r else e :: latest r end.
Definition is_map {A} (P : json -> A -> Prop) (v : json) (m : list (N * A)) : Prop :=
  exists es l, v = JObj es /\ m = latest l /\
    Forall2 (fun e f => json_number (fst e) /\ counts (fst e) (fst f) /\ fst f <= u32_max /\ P (snd e) (snd f)) es l.

(** ** Catalogs *)
Definition track_names := [text "name"; text "priority"].
Definition is_track (v : json) (t : track_info) : Prop :=
  structure track_names 2 v /\ has track_names v "name" is_string (ti_name t) /\ has track_names v "priority" (is_uint u8_max) (ti_priority t).
Section Floats.
Context {F64 F32 : Type} (f64_text : F64 -> option bytes) (f64_of : bytes -> option F64)
  (f32_text : F32 -> option bytes) (f32_of : bytes -> option F32) (f32_0 f32_1 : F32) (u : unicode).
Definition is_f64 (v : json) (x : F64) : Prop := exists t, v = JNum t /\ f64_of t = Some x.
Definition is_f32 (v : json) (x : F32) : Prop := exists t, v = JNum t /\ f32_of t = Some x.

Definition video_config_names := map text
  ["codec"; "description"; "codedWidth"; "codedHeight"; "displayRatioWidth"; "displayRatioHeight"; "bitrate"; "framerate";
   "optimizeForLatency"; "rotation"; "flip"]%string.
Definition is_video_config (v : json) (c : @video_config F64) : Prop :=
  let n := video_config_names in
  structure n 6 v /\ has n v "codec" (is_video u) (vc_codec c) /\ may n v "description" is_hex (vc_description c) /\
  may n v "codedWidth" (is_uint u32_max) (vc_width c) /\ may n v "codedHeight" (is_uint u32_max) (vc_height c) /\
  may n v "displayRatioWidth" (is_uint u32_max) (vc_ratio_width c) /\ may n v "displayRatioHeight" (is_uint u32_max) (vc_ratio_height c) /\
  may n v "bitrate" (is_uint u64_max) (vc_bitrate c) /\ may n v "framerate" is_f64 (vc_framerate c) /\
  may n v "optimizeForLatency" is_bool (vc_latency c) /\ may n v "rotation" is_f64 (vc_rotation c) /\ may n v "flip" is_bool (vc_flip c).
Definition audio_config_names := map text ["codec"; "sampleRate"; "numberOfChannels"; "bitrate"; "description"]%string.
Definition is_audio_config (v : json) (c : audio_config) : Prop :=
  let n := audio_config_names in
  structure n 3 v /\ has n v "codec" is_audio (ac_codec c) /\ has n v "sampleRate" (is_uint u32_max) (ac_rate c) /\
  has n v "numberOfChannels" (is_uint u32_max) (ac_channels c) /\ may n v "bitrate" (is_uint u64_max) (ac_bitrate c) /\
  may n v "description" is_hex (ac_description c).
Definition info_names := map text ["track"; "config"]%string.
Definition is_video_info (v : json) (i : video_info) : Prop :=
  structure info_names 2 v /\ has info_names v "track" is_track (vi_track i) /\ has info_names v "config" is_video_config (vi_config i).
Definition is_audio_info (v : json) (i : audio_info) : Prop :=
  structure info_names 2 v /\ has info_names v "track" is_track (ai_track i) /\ has info_names v "config" is_audio_config (ai_config i).

Definition position_names := map text ["x"; "y"; "zoom"]%string.
Definition is_position (v : json) (p : position) : Prop :=
  let n := position_names in
  structure n 0 v /\ or_else n v "x" is_f32 f32_0 (po_x p) /\ or_else n v "y" is_f32 f32_0 (po_y p) /\ or_else n v "zoom" is_f32 f32_1 (po_zoom p).
Definition location_names := map text ["initial"; "updates"; "peers"; "handle"]%string.
Definition is_location (v : json) (o : location) : Prop :=
  let n := location_names in
  structure n 0 v /\ may n v "initial" is_position (lo_initial o) /\ may n v "updates" is_track (lo_updates o) /\
  or_else n v "peers" (is_map is_track) [] (lo_peers o) /\ may n v "handle" (is_uint u32_max) (lo_handle o).
Definition catalog_names := map text ["video"; "audio"; "location"]%string.
Definition is_catalog (v : json) (c : @catalog_info F64 F32) : Prop :=
  let n := catalog_names in
  structure n 0 v /\ or_else n v "video" (is_list is_video_info) [] (ct_video c) /\ or_else n v "audio" (is_list is_audio_info) [] (ct_audio c) /\
  may n v "location" is_location (ct_location c).

(** ** The catalogs a publisher can hold: what the types of the fields allow *)
Definition track_value (t : track_info) : Prop := is_text (ti_name t) /\ ti_priority t <= u8_max.
Definition within (max : N) (o : option N) : Prop := forall n, o = Some n -> n <= max.
Definition video_config_value (c : @video_config F64) : Prop :=
  video_value (vc_codec c) /\ is_text (show_video (vc_codec c)) /\
  within u32_max (vc_width c) /\ within u32_max (vc_height c) /\ within u32_max (vc_ratio_width c) /\
  within u32_max (vc_ratio_height c) /\ within u64_max (vc_bitrate c).
Definition audio_config_value (c : audio_config) : Prop :=
  is_text (show_audio (ac_codec c)) /\ ac_rate c <= u32_max /\ ac_channels c <= u32_max /\ within u64_max (ac_bitrate c).
Definition map_value (m : list (N * track_info)) : Prop :=
  NoDup (map fst m) /\ Forall (fun e => fst e <= u32_max /\ track_value (snd e)) m.
Definition location_value (o : @location F32) : Prop :=
  (forall t, lo_updates o = Some t -> track_value t) /\ map_value (lo_peers o) /\ within u32_max (lo_handle o).
Definition catalog_value (c : @catalog_info F64 F32) : Prop :=
  Forall (fun i => track_value (vi_track i) /\ video_config_value (vi_config i)) (ct_video c) /\
  Forall (fun i => track_value (ai_track i) /\ audio_config_value (ai_config i)) (ct_audio c) /\
  (forall o, ct_location c = Some o -> location_value o).

(** ** Those that can be read back: the name of each codec is good (C58, C60, C62) and each number survives *)
Definition f64_good (x : F64) : Prop := exists t, f64_text x = Some t /\ f64_of t = Some x.
Definition f32_good (x : F32) : Prop := exists t, f32_text x = Some t /\ f32_of t = Some x.
Definition catalog_good (c : @catalog_info F64 F32) : Prop :=
  Forall (fun i => video_good (uni_word u) (vc_codec (vi_config i)) /\
                   (forall x, vc_framerate (vi_config i) = Some x \/ vc_rotation (vi_config i) = Some x -> f64_good x)) (ct_video c) /\
  Forall (fun i => audio_good (ac_codec (ai_config i))) (ct_audio c) /\
  (forall o p, ct_location c = Some o -> lo_initial o = Some p -> f32_good (po_x p) /\ f32_good (po_y p) /\ f32_good (po_zoom p)).
End Floats.

(** ** Feedback *)
Definition codecs_names := map text ["hardware"; "software"; "unsupported"]%string.
Definition is_codecs {C} (P : json -> C -> Prop) (v : json) (c : codecs C) : Prop :=
  let n := codecs_names in
  structure n 0 v /\ or_else n v "hardware" (is_list P) [] (cd_hardware c) /\ or_else n v "software" (is_list P) [] (cd_software c) /\
  or_else n v "unsupported" (is_list P) [] (cd_unsupported c).
Definition capabilities_names := map text ["video"; "audio"]%string.
Definition is_capabilities (u : unicode) (v : json) (c : capabilities) : Prop :=
  let n := capabilities_names in
  structure n 0 v /\ or_else n v "video" (is_codecs (is_video u)) (Codecs [] [] []) (cp_video c) /\
  or_else n v "audio" (is_codecs is_audio) (Codecs [] [] []) (cp_audio c).
Definition feedback_names := map text ["capabilities"; "locations"]%string.
Definition is_feedback (u : unicode) (v : json) (f : feedback) : Prop :=
  let n := feedback_names in
  structure n 0 v /\ may n v "capabilities" (is_capabilities u) (fb_capabilities f) /\
  or_else n v "locations" (is_map is_track) [] (fb_locations f).
Definition all_codecs {C} (c : codecs C) : list C := cd_hardware c ++ cd_software c ++ cd_unsupported c.
Definition feedback_value (f : feedback) : Prop :=
  (forall c, fb_capabilities f = Some c ->
     Forall (fun x => video_value x /\ is_text (show_video x)) (all_codecs (cp_video c)) /\
     Forall (fun x => is_text (show_audio x)) (all_codecs (cp_audio c))) /\
  map_value (fb_locations f).
Definition feedback_good (u : unicode) (f : feedback) : Prop :=
  forall c, fb_capabilities f = Some c ->
    Forall (video_good (uni_word u)) (all_codecs (cp_video c)) /\ Forall audio_good (all_codecs (cp_audio c)).

(** ** A value somewhere in another *)
Inductive within_json (x : json) : json -> Prop :=
| wi_here : within_json x x
| wi_arr v l : In v l -> within_json x v -> within_json x (JArr l)
| wi_obj k v l : In (k, v) l -> within_json x v -> within_json x (JObj l).
