(** C218, C219: catalogs between the Rust and the JavaScript library. *)
From Coq Require Import NArith.
From Coq Require Import Strings.String.
From Coq Require Import List Bool Lia.
From Coq Require Import Init.Byte Strings.Byte.
From Verif.Model Require Import Base Map Text Codec Json Native Catalog CatalogJson Import ImportCodec JsCatalog.
From Verif.Spec Require Import CodingSpec CodecSpec NativeSpec JsonSpec CatalogJsonSpec ImportCodecSpec JsCatalogSpec.
From Verif.Proofs Require Import BaseP JsonP CatalogJsonP CatalogPrintP JsCatalogP JsCatalogBackP JsCatalogImportP.
Import ListNotations.
Open Scope N_scope.

(** ** C218: a web page accepts the catalogs that the Rust library publishes, exactly if their numbers suit JavaScript *)
Theorem C218_exact : forall F64 F32 (f64_text : F64 -> option bytes) (f32_text : F32 -> option bytes) nulls c,
  (forall x t, f64_text x = Some t -> json_number t) -> (forall x t, f32_text x = Some t -> json_number t) -> catalog_value c ->
  (js_decodes (print_catalog f64_text f32_text nulls c) = true <-> for_web f64_text f32_text nulls c).
Proof. intros. apply web_decodes; assumption. Qed.
Print Assumptions C218_exact.

(** Some numbers: 30, 29.97, infinity *)
Inductive few := Thirty | Ntsc | Endless.
Definition few_text (x : few) : option bytes := match x with Thirty => Some (text "30.0") | Ntsc => Some (text "29.97") | Endless => None end.
Lemma few_number x t : few_text x = Some t -> json_number t.
Proof.
  assert (E : forall s, read_number s = Some (s, []) -> json_number s).
  { intros s H. apply read_number_sound in H. tauto. }
  destruct x; intros [= <-]; apply E; vm_compute; reflexivity.
Qed.
Definition film (rate : few) (bitrate : N) : @video_info few :=
  VideoInfo (TrackInfo (text "video0") 2) (VideoConfig VP8 None (Some 1280) None None None (Some bitrate) (Some rate) (Some true) None None).
Definition voice : audio_info := AudioInfo (TrackInfo (text "audio0") 1) (AudioConfig Opus 48000 2 (Some 64000) None).
Definition place (o : option (@position few)) : @location few := Location o (Some (TrackInfo (text "where") 0)) [(7, TrackInfo (text "peer") 0)] (Some 3).
Definition show (rate : few) (bitrate : N) (o : option (@position few)) : @catalog_info few few := Catalog [film rate bitrate] [voice] (Some (place o)).
Lemma show_ok rate bitrate o : bitrate <= u64_max -> catalog_value (show rate bitrate o).
Proof.
  assert (T : forall s, utf8_valid s = true -> is_text s) by (intros s; apply utf8_valid_iff).
  intros B. split; [|split].
  - constructor; [|constructor]. split; [split; [apply T; reflexivity|cbn; unfold u8_max; lia]|].
    split; [exact I|]. split; [apply T; reflexivity|]. repeat split; intros n [= <-]; [vm_compute; discriminate|exact B].
  - constructor; [|constructor]. split; [split; [apply T; reflexivity|cbn; unfold u8_max; lia]|].
    split; [apply T; reflexivity|]. split; [vm_compute; discriminate|]. split; [vm_compute; discriminate|]. intros n [= <-]; vm_compute; discriminate.
  - intros p [= <-]. split; [intros t [= <-]; split; [apply T; reflexivity|vm_compute; discriminate]|]. split; [|intros n [= <-]; vm_compute; discriminate].
    split; [repeat constructor; auto|]. constructor; [|constructor]. split; [vm_compute; discriminate|]. split; [apply T; reflexivity|vm_compute; discriminate].
Qed.
Definition middle : @position few := Position Thirty Thirty Endless.
Example C218_meets : catalog_value (show Thirty 5000000 (Some middle)) /\ for_web few_text few_text true (show Thirty 5000000 (Some middle)).
Proof.
  assert (V : catalog_value (show Thirty 5000000 (Some middle))) by (apply show_ok; vm_compute; discriminate).
  split; [exact V|]. apply (C218_exact _ _ _ _ _ _ few_number few_number V). vm_compute. reflexivity.
Qed.
(** Every catalog that the importer of movies publishes, also of one that is refused half way, is accepted. *)
Theorem C218_import : forall F64 F32 (f64_text : F64 -> option bytes) (f32_text : F32 -> option bytes) nulls ks (m : movie F64 F32) o,
  (forall x t, f64_text x = Some t -> json_number t) -> (forall x t, f32_text x = Some t -> json_number t) ->
  init_movie ks movie_new = (m, o) -> Forall trak_value ks ->
  forall c, In c (mo_published m) -> js_decodes (print_catalog f64_text f32_text nulls c) = true.
Proof. intros F64 F32 f64_text f32_text nulls ks m o. exact (import_for_web f64_text f32_text nulls ks m o). Qed.
Print Assumptions C218_import.
Definition clip : list mtrak :=
  [MTrak 1 Vide 90000 [Avc1 (Visual 1280 720) (Avcc x64 x00 x1f (inl [x01; x64; x00; x1f]))];
   MTrak 2 Soun 44100 [Mp4a (Sound 2 44100) (Esds x40 128000 4294967295 x02 x04)]; MTrak 3 Sbtl 1000 []].
Example C218_import_meets : exists (m : movie few few) e, init_movie clip movie_new = (m, Some e) /\ Forall trak_value clip /\
  List.length (mo_published m) = 2%nat.
Proof. do 2 eexists. split; [vm_compute; reflexivity|]. split; [repeat constructor; cbn; lia|]. vm_compute. reflexivity. Qed.
(** Catalogs that the Rust library publishes and a web page refuses: for a frame rate that is not whole; ... *)
Theorem C218_refuted : exists c : @catalog_info few few, catalog_value c /\ (forall nulls, js_decodes (print_catalog few_text few_text nulls c) = false) /\
  map (fun i => option_map few_text (vc_framerate (vi_config i))) (ct_video c) = [Some (Some (text "29.97"))].
Proof. exists (show Ntsc 5000000 (Some middle)). split; [apply show_ok; vm_compute; discriminate|]. split; [intros []; vm_compute; reflexivity|reflexivity]. Qed.
Print Assumptions C218_refuted.
(** ... for a bitrate of 2^32; ... *)
Theorem C218_bitrate_refuted : exists c : @catalog_info few few, catalog_value c /\ (forall nulls, js_decodes (print_catalog few_text few_text nulls c) = false) /\
  map (fun i => vc_bitrate (vi_config i)) (ct_video c) = [Some 4294967296].
Proof. exists (show Thirty 4294967296 (Some middle)). split; [apply show_ok; vm_compute; discriminate|]. split; [intros []; vm_compute; reflexivity|reflexivity]. Qed.
Print Assumptions C218_bitrate_refuted.
(** ... and, if nulls are printed, for a location without an initial position. *)
Theorem C218_null_refuted : exists c : @catalog_info few few, catalog_value c /\
  js_decodes (print_catalog few_text few_text true c) = false /\ js_decodes (print_catalog few_text few_text false c) = true.
Proof. exists (show Thirty 5000000 None). split; [apply show_ok; vm_compute; discriminate|]. split; vm_compute; reflexivity. Qed.
Print Assumptions C218_null_refuted.

(** ** C219: the Rust library reads the catalogs that JavaScript accepts *)
(** It does not: JavaScript names peers by the name of their broadcast, the Rust library by a number. *)
Theorem C219_peers_partial : forall F64 F32 (f64_of : bytes -> option F64) (f32_of : bytes -> option F32) f32_0 f32_1 u s c,
  parse_catalog f64_of f32_of f32_0 f32_1 u s = Got c -> forall k, names_peer s k -> json_number k /\ exists n, counts k n /\ n <= u32_max.
Proof. intros F64 F32 f64_of f32_of f32_0 f32_1 u s c. exact (peers_numbered f64_of f32_of f32_0 f32_1 u s c). Qed.
Print Assumptions C219_peers_partial.
Definition no_digits : unicode := {| uni_digit := fun _ => false; uni_word := fun _ => false |}.
Definition some_float (t : bytes) : option few := Some Thirty.
Example C219_meets :
  let s := text "{""location"":{""peers"":{""7"":{""name"":""peer"",""priority"":0}}}}" in
  names_peer s (text "7") /\ js_decodes s = true /\
  parse_catalog some_float some_float Thirty Thirty no_digits s = Got (Catalog [] [] (Some (Location None None [(7, TrackInfo (text "peer") 0)] None))).
Proof.
  assert (T : forall k, escape k = k -> utf8_valid k = true -> text_of k k) by (intros k E V; apply plain_text; [split; [exact E|apply utf8_valid_iff, V]|reflexivity]).
  split; [|split; vm_compute; reflexivity].
  do 4 eexists. split; [apply read_json_exact; vm_compute; reflexivity|]. split; [|split].
  - eexists. split; [left; reflexivity|]. apply T; vm_compute; reflexivity.
  - eexists. split; [left; reflexivity|]. apply T; vm_compute; reflexivity.
  - left. reflexivity.
Qed.
Theorem C219_refuted : exists s, js_decodes s = true /\
  forall F64 F32 (f64_of : bytes -> option F64) (f32_of : bytes -> option F32) f32_0 f32_1 u,
    parse_catalog f64_of f32_of f32_0 f32_1 u s = Refused.
Proof. exists (text "{""location"":{""peers"":{""alice"":{""name"":""peer"",""priority"":0}}}}"). split; [vm_compute; reflexivity|]. intros. vm_compute. reflexivity. Qed.
Print Assumptions C219_refuted.
(** The priority of a track may be any number of 32 bits in JavaScript, and one of 8 bits in Rust. *)
Theorem C219_priority_refuted : exists s, js_decodes s = true /\
  forall F64 F32 (f64_of : bytes -> option F64) (f32_of : bytes -> option F32) f32_0 f32_1 u,
    parse_catalog f64_of f32_of f32_0 f32_1 u s = Refused.
Proof.
  exists (text "{""audio"":[{""track"":{""name"":""audio0"",""priority"":256},""config"":{""codec"":""opus"",""sampleRate"":48000,""numberOfChannels"":2}}]}").
  split; [vm_compute; reflexivity|]. intros. vm_compute. reflexivity.
Qed.
Print Assumptions C219_priority_refuted.
