(** C111-C114: catalogs and feedback as JSON.  The floating point numbers and their text are those of the standard library and
    of serde_json: here any types, with any conversions of which the first gives JSON numbers. *)
From Coq Require Import NArith.
From Coq Require Import Strings.String.
From Coq Require Import List Bool Lia Permutation.
From Coq Require Import Init.Byte Strings.Byte.
From Verif.Model Require Import Base Map Text Codec Json Native Catalog CatalogJson.
From Verif.Spec Require Import CodingSpec CodecSpec NativeSpec JsonSpec CatalogJsonSpec.
From Verif.Proofs Require Import BaseP JsonP CatalogJsonP CatalogPrintP CatalogPanicP CatalogOrderP.
Import ListNotations.
Open Scope N_scope.

(** For the examples numbers are natural or infinite. *)
Inductive num := Fin (n : N) | Inf.
Definition num_text (x : num) : option bytes := match x with Fin n => Some (show 10 n) | Inf => None end.
Definition num_of (t : bytes) : option num := match uint_of u64_max t with Some n => Some (Fin n) | None => None end.
Lemma num_text_number x t : num_text x = Some t -> json_number t.
Proof. destruct x as [n|]; [|discriminate]. intros [= <-]. apply show_number. Qed.
Definition ascii_only : unicode := {| uni_digit := fun _ => false; uni_word := fun _ => false |}.
Notation example_parse := (parse_catalog num_of num_of (Fin 0) (Fin 1) ascii_only).
Notation example_print := (print_catalog num_text num_text false).
Definition camera (codec : video) (rate : option num) : @video_info num :=
  VideoInfo (TrackInfo (text "video0") 2) (VideoConfig codec (Some [x01; xab]) (Some 1280) None None None None rate (Some true) None None).
Definition stereo : audio_info := AudioInfo (TrackInfo (text "audio0") 1) (AudioConfig Opus 48000 2 (Some 64000) None).
Definition seat (x : num) : @location num :=
  Location (Some (Position x (Fin 2) (Fin 1))) None [(7, TrackInfo (text "a""b") 0)] (Some 3).
Definition show_1 : @catalog_info num num := Catalog [camera VP8 (Some (Fin 30))] [stereo] (Some (seat (Fin 0))).

(** ** C111: a catalog is read as it was published *)
(** What is published is JSON, and it is read as the same catalog exactly if the names of its codecs are good (C58 to C62)
    and its floating point numbers survive. *)
Theorem C111_json : forall F64 F32 (f64_text : F64 -> option bytes) (f32_text : F32 -> option bytes) nulls c,
  (forall x t, f64_text x = Some t -> json_number t) -> (forall x t, f32_text x = Some t -> json_number t) ->
  document (j_catalog f64_text f32_text nulls c) (print_catalog f64_text f32_text nulls c).
Proof. intros. apply catalog_printed; assumption. Qed.
Print Assumptions C111_json.
Theorem C111_catalog_exact : forall F64 F32 (f64_text : F64 -> option bytes) f64_of (f32_text : F32 -> option bytes) f32_of f32_0 f32_1 u nulls c,
  (forall x t, f64_text x = Some t -> json_number t) -> (forall x t, f32_text x = Some t -> json_number t) -> catalog_value c ->
  parse_catalog f64_of f32_of f32_0 f32_1 u (print_catalog f64_text f32_text nulls c) = Got c <->
  catalog_good f64_text f64_of f32_text f32_of u c.
Proof. intros. apply catalog_roundtrip; assumption. Qed.
Print Assumptions C111_catalog_exact.

Lemma ascii_ok s : utf8_valid s = true -> is_text s.
Proof. apply utf8_valid_iff. Qed.
Lemma show_value c rate x : c = VP8 \/ c = VUnknown (text "vp8") -> catalog_value (Catalog [camera c rate] [stereo] (Some (seat x))).
Proof.
  intros C. split; [|split].
  - constructor; [|constructor]. split; [split; [apply ascii_ok; reflexivity|cbn; unfold u8_max; lia]|].
    split; [destruct C as [-> | ->]; exact I|]. split; [apply ascii_ok; destruct C as [-> | ->]; reflexivity|].
    repeat split; intros n [= <-]; vm_compute; discriminate.
  - constructor; [|constructor]. split; [split; [apply ascii_ok; reflexivity|cbn; unfold u8_max; lia]|].
    split; [apply ascii_ok; reflexivity|]. split; [vm_compute; discriminate|]. split; [vm_compute; discriminate|]. intros n [= <-]; vm_compute; discriminate.
  - intros o [= <-]. split; [discriminate|]. split; [|intros n [= <-]; vm_compute; discriminate].
    split; [repeat constructor; auto|]. constructor; [|constructor]. split; [vm_compute; discriminate|]. split; [apply ascii_ok; reflexivity|vm_compute; discriminate].
Qed.
Example C111_meets : catalog_value show_1 /\ catalog_good num_text num_of num_text num_of ascii_only show_1 /\ example_parse (example_print show_1) = Got show_1.
Proof.
  split; [apply show_value; auto|]. assert (H : example_parse (example_print show_1) = Got show_1) by (vm_compute; reflexivity).
  split; [|exact H]. apply (C111_catalog_exact _ _ _ _ _ _ _ _ _ _ _ num_text_number num_text_number) in H; [exact H|apply show_value; auto].
Qed.
Example C111_text : example_print show_1 = text
  "{""video"":[{""track"":{""name"":""video0"",""priority"":2},""config"":{""codec"":""vp8"",""description"":""01ab"",""codedWidth"":1280,""framerate"":30,""optimizeForLatency"":true}}],""audio"":[{""track"":{""name"":""audio0"",""priority"":1},""config"":{""codec"":""opus"",""sampleRate"":48000,""numberOfChannels"":2,""bitrate"":64000}}],""location"":{""initial"":{""x"":0,""y"":2,""zoom"":1},""peers"":{""7"":{""name"":""a\""b"",""priority"":0}},""handle"":3}}".
Proof. vm_compute. reflexivity. Qed.

(** In general: every catalog is read as it was published. *)
Definition C111_catalog : Prop := forall F64 F32 (f64_text : F64 -> option bytes) f64_of (f32_text : F32 -> option bytes) f32_of f32_0 f32_1 u nulls c,
  (forall x t, f64_text x = Some t -> json_number t /\ f64_of t = Some x) ->
  (forall x t, f32_text x = Some t -> json_number t /\ f32_of t = Some x) -> catalog_value c ->
  parse_catalog f64_of f32_of f32_0 f32_1 u (print_catalog f64_text f32_text nulls c) = Got c.
(** False: a frame rate that is not finite is read as no frame rate; with such a position nothing is read; and so with names
    of codecs, for example an unknown one called like a known one. *)
Theorem C111_framerate_refuted : exists c c' : @catalog_info num num, catalog_value c /\ c <> c' /\ example_parse (example_print c) = Got c'.
Proof.
  exists (Catalog [camera VP8 (Some Inf)] [stereo] (Some (seat (Fin 0)))), (Catalog [camera VP8 None] [stereo] (Some (seat (Fin 0)))).
  split; [apply show_value; auto|]. split; [discriminate|]. vm_compute. reflexivity.
Qed.
Print Assumptions C111_framerate_refuted.
Theorem C111_position_refuted : exists c : @catalog_info num num, catalog_value c /\ example_parse (example_print c) = Refused.
Proof. exists (Catalog [camera VP8 None] [stereo] (Some (seat Inf))). split; [apply show_value; auto|]. vm_compute. reflexivity. Qed.
Print Assumptions C111_position_refuted.
Theorem C111_codec_refuted : exists c c' : @catalog_info num num, catalog_value c /\ c <> c' /\ example_parse (example_print c) = Got c'.
Proof.
  exists (Catalog [camera (VUnknown (text "vp8")) None] [stereo] (Some (seat (Fin 0)))), (Catalog [camera VP8 None] [stereo] (Some (seat (Fin 0)))).
  split; [apply show_value; auto|]. split; [discriminate|]. vm_compute. reflexivity.
Qed.
Print Assumptions C111_codec_refuted.

(** ** C112: how a catalog is written does not matter *)
(** A catalog is read exactly from the JSON texts that say it, however they are laid out. *)
Theorem C112_text : forall F64 F32 (f64_of : bytes -> option F64) (f32_of : bytes -> option F32) f32_0 f32_1 u s c,
  parse_catalog f64_of f32_of f32_0 f32_1 u s = Got c <-> exists v, document v s /\ is_catalog f64_of f32_of f32_0 f32_1 u v c.
Proof. intros. apply parse_catalog_exact. Qed.
Print Assumptions C112_text.
(** In particular its members may come in any order, and others may be among them. *)
Theorem C112_order : forall F64 F32 (f64_of : bytes -> option F64) (f32_of : bytes -> option F32) f32_0 f32_1 u es fs s t c,
  document (JObj es) s -> document (JObj fs) t -> Permutation es fs ->
  parse_catalog f64_of f32_of f32_0 f32_1 u s = Got c <-> parse_catalog f64_of f32_of f32_0 f32_1 u t = Got c.
Proof. intros. eapply catalog_reordered; eassumption. Qed.
Print Assumptions C112_order.
Theorem C112_unknown : forall F64 F32 (f64_of : bytes -> option F64) (f32_of : bytes -> option F32) f32_0 f32_1 u raw k x es s t c,
  document (JObj ((raw, x) :: es)) s -> document (JObj es) t -> text_of raw k -> ~ In k (map text ["video"; "audio"; "location"]%string) ->
  parse_catalog f64_of f32_of f32_0 f32_1 u s = Got c <-> parse_catalog f64_of f32_of f32_0 f32_1 u t = Got c.
Proof. intros. eapply catalog_unknown_ignored; eassumption. Qed.
Print Assumptions C112_unknown.
Example C112_meets : example_parse (text
  " { ""chat"" : [ { } , ""\ud800"" , -1.5e+3 ] , ""audio"":[[[""audio0"",1],{""numberOfChannels"":2,""sampleRate"":48000,""codec"":""opus"",""bitrate"":64000,""description"":null}]], ""location"":null }") =
  Got (Catalog [] [stereo] None).
Proof. vm_compute. reflexivity. Qed.

(** ** C113: no catalog and no feedback makes its reader panic *)
Definition C113_catalog : Prop := forall F64 F32 (f64_of : bytes -> option F64) (f32_of : bytes -> option F32) f32_0 f32_1 u s,
  parse_catalog f64_of f32_of f32_0 f32_1 u s <> Crash.
(** False: the name of an H.264 codec whose characters do not come in pairs of bytes. *)
Definition cut_codec : bytes := text "avc1.0" ++ [xc3; xa9] ++ text "abc".
Theorem C113_catalog_refuted : exists s, example_parse s = Crash.
Proof.
  exists (text "{""video"":[{""track"":{""name"":"""",""priority"":0},""config"":{""codec"":""" ++ cut_codec ++ text """}}]}").
  vm_compute. reflexivity.
Qed.
Print Assumptions C113_catalog_refuted.
Theorem C113_feedback_refuted : exists s, parse_feedback ascii_only s = Crash.
Proof. exists (text "{""capabilities"":{""video"":{""software"":[""" ++ cut_codec ++ text """]}}}"). vm_compute. reflexivity. Qed.
Print Assumptions C113_feedback_refuted.
(** It is the only way. *)
Theorem C113_catalog_partial : forall F64 F32 (f64_of : bytes -> option F64) (f32_of : bytes -> option F32) f32_0 f32_1 u s,
  parse_catalog f64_of f32_of f32_0 f32_1 u s = Crash ->
  exists v raw t, document v s /\ within_json (JStr raw) v /\ text_of raw t /\ h264_cut t.
Proof. intros. eapply catalog_crash; eassumption. Qed.
Print Assumptions C113_catalog_partial.
Theorem C113_feedback_partial : forall u s, parse_feedback u s = Crash ->
  exists v raw t, document v s /\ within_json (JStr raw) v /\ text_of raw t /\ h264_cut t.
Proof. exact feedback_crash. Qed.
Print Assumptions C113_feedback_partial.

(** ** C114: feedback is read as it was sent *)
Theorem C114_feedback_exact : forall u f, feedback_value f -> parse_feedback u (print_feedback f) = Got f <-> feedback_good u f.
Proof. exact feedback_roundtrip. Qed.
Print Assumptions C114_feedback_exact.
Theorem C114_text : forall u s f, parse_feedback u s = Got f <-> exists v, document v s /\ is_feedback u v f.
Proof. exact parse_feedback_exact. Qed.
Print Assumptions C114_text.
Definition wishes : feedback :=
  Feedback (Some (Capabilities (Codecs [VP8] [] []) (Codecs [] [Opus] [AUnknown (text "g722")]))) [(7, TrackInfo (text "where") 3)].
Lemma wishes_value : feedback_value wishes.
Proof.
  split.
  - intros c [= <-]. cbn. split; repeat constructor; apply ascii_ok; reflexivity.
  - split; [repeat constructor; auto|]. repeat constructor; cbn; try (vm_compute; discriminate). apply ascii_ok. reflexivity.
Qed.
Example C114_meets : feedback_value wishes /\ feedback_good ascii_only wishes /\ parse_feedback ascii_only (print_feedback wishes) = Got wishes.
Proof.
  assert (H : parse_feedback ascii_only (print_feedback wishes) = Got wishes) by (vm_compute; reflexivity).
  split; [exact wishes_value|]. split; [|exact H]. apply (C114_feedback_exact _ _ wishes_value). exact H.
Qed.
(** In general: all feedback is.  False: as for catalogs. *)
Definition C114_feedback : Prop := forall u f, feedback_value f -> parse_feedback u (print_feedback f) = Got f.
Theorem C114_codec_refuted : exists f f', feedback_value f /\ f <> f' /\ parse_feedback ascii_only (print_feedback f) = Got f'.
Proof.
  exists (Feedback (Some (Capabilities (Codecs [] [] []) (Codecs [AUnknown (text "opus")] [] []))) []),
    (Feedback (Some (Capabilities (Codecs [] [] []) (Codecs [Opus] [] []))) []).
  split; [|split; [discriminate|vm_compute; reflexivity]]. split; [|split; constructor]. intros c [= <-]. cbn. split; repeat constructor; apply ascii_ok; reflexivity.
Qed.
Print Assumptions C114_codec_refuted.
