(** Codec names in the catalog: C57-C62. *)
From Coq Require Import NArith List Lia Bool.
From Coq Require Import Strings.String.
From Coq Require Import Init.Byte Strings.Byte.
From Verif.Model Require Import Base Codec.
From Verif.Spec Require Import CodingSpec CodecSpec.
From Verif.Proofs Require BaseP CodecP CodecAv1P.
Import ListNotations.
Open Scope list_scope.

(** Tables used in examples: no digits or word characters beyond ASCII. *)
Definition ascii_only : unicode := {| uni_digit := fun _ => false; uni_word := fun _ => false |}.

(** ** C57: H.264 *)
Theorem C57_roundtrip : forall h, parse_h264 (show_h264 h) = Parsed h.
Proof. exact CodecP.h264_roundtrip. Qed.
Theorem C57_accepts_exactly : forall s h, parse_h264 s = Parsed h <-> h264_text s h.
Proof. exact CodecP.parse_h264_iff. Qed.
Example C57_case : show_h264 {| h4_profile := x42; h4_constraints := xc0; h4_level := x1e |} = ascii "avc1.42c01e".
Proof. reflexivity. Qed.
Example C57_case_loose : parse_h264 (ascii "avc1.42C0+E.anything") = Parsed {| h4_profile := x42; h4_constraints := xc0; h4_level := x0e |}.
Proof. reflexivity. Qed.

(** ** C58: H.265 *)
(** A description survives printing and parsing exactly when its profile space has a letter, its
    compatibility flags are not all zero and have no byte below 16 under the most significant one, and
    its constraint flags are not all zero. *)
Theorem C58_roundtrip_partial : forall h, h265_value h -> parse_h265 (show_h265 h) = Parsed h <-> h265_good h.
Proof. exact CodecP.h265_exact. Qed.
(** The Main profile at level 3.1 without constraint flags is rejected after printing. *)
Theorem C58_error_refuted : exists s h, is_text s /\ parse_h265 s = Parsed h /\ h265_value h /\
  parse_h265 (show_h265 h) = BadNumber.
Proof.
  exists (ascii "hev1.1.6.L93"). eexists. split; [apply BaseP.utf8_valid_iff; reflexivity|]. split; [vm_compute; reflexivity|].
  split; [split; reflexivity|]. vm_compute. reflexivity.
Qed.
(** Compatibility flags 0x0106 come back as 0x16: another description, and no error. *)
Theorem C58_silent_refuted : exists h h', h265_value h /\ parse_h265 (show_h265 h) = Parsed h' /\ h' <> h.
Proof.
  exists {| h5_in_band := true; h5_space := x00; h5_idc := x01; h5_compat := [x06; x01; x00; x00]; h5_tier := false; h5_level := x5d;
            h5_constraints := [xb0; x00; x00; x00; x00; x00] |}.
  eexists. split; [split; reflexivity|]. split; [vm_compute; reflexivity|]. discriminate.
Qed.
Example C58_case : h265_good {| h5_in_band := true; h5_space := x01; h5_idc := x04; h5_compat := [x41; x00; x00; x00]; h5_tier := true;
  h5_level := x78; h5_constraints := [xb0; x23; x00; x00; x00; x00] |}.
Proof.
  split; [vm_compute; discriminate|]. split; [exists 0%nat; discriminate|]. split; [|exists 0%nat; discriminate].
  intros i j L. cbn [h5_compat]. do 4 (destruct j as [|j]; [cbn; try (inversion L; fail); intros K; exfalso; apply K; reflexivity|]).
  intros K. exfalso. apply K. destruct j; reflexivity.
Qed.

(** ** C59: VP9 *)
Theorem C59_roundtrip : forall v, parse_vp9 (show_vp9 v) = Parsed v.
Proof. exact CodecP.vp9_roundtrip. Qed.
Theorem C59_accepts_exactly : forall s v, parse_vp9 s = Parsed v <-> vp9_text s v.
Proof. exact CodecP.parse_vp9_iff. Qed.
Example C59_case : show_vp9 (Build_vp9 x02 x0a x0a x01 x09 x10 x09 true) = ascii "vp09.02.10.10.01.09.16.09.01".
Proof. reflexivity. Qed.

(** ** C60: AV1 *)
(** Exactly the descriptions with profile 0 or 1, a word character as tier, and numbers of two digits
    survive.  The Unicode table beyond ASCII is arbitrary. *)
Theorem C60_roundtrip_partial : forall u a, av1_value a -> parse_av1 u (show_av1 a) = Parsed a <-> av1_good (uni_word u) a.
Proof. exact CodecAv1P.av1_exact. Qed.
(** The Professional profile (2) is printed and then rejected. *)
Theorem C60_refuted : exists a, av1_value a /\ forall u, parse_av1 u (show_av1 a) = InvalidCodec.
Proof.
  exists (Build_av1 x02 x04 77 x0c false true false x00 x01 x01 x01 false). split; [left; reflexivity|]. intros u. reflexivity.
Qed.
Example C60_case : av1_good (uni_word ascii_only) (Build_av1 x00 x04 77 x0a false true true x02 x09 x10 x09 false).
Proof.
  unfold av1_good. cbn [a1_profile a1_level a1_depth a1_tier a1_pos a1_color a1_transfer a1_matrix].
  repeat (split; [vm_compute; discriminate|]). split; [left; lia|]. right. repeat split; vm_compute; discriminate.
Qed.

(** ** C61: parsing never panics *)
(** Video names panic exactly when they are [avc1] names whose six-byte part has a character across a
    pair boundary. *)
Theorem C61_video_panics_partial : forall u s, is_text s -> parse_video u s = Panics <-> h264_cut s.
Proof. exact CodecAv1P.video_panics. Qed.
Theorem C61_audio : forall s, parse_audio s <> Panics.
Proof. exact CodecAv1P.audio_not_panics. Qed.
(** [avc1.] followed by two euro signs *)
Theorem C61_refuted : exists s, is_text s /\ forall u, parse_video u s = Panics.
Proof.
  exists (ascii "avc1." ++ [xe2; x82; xac; xe2; x82; xac]). split; [apply BaseP.utf8_valid_iff; reflexivity|]. intros u. reflexivity.
Qed.

(** ** C62: dispatch *)
Theorem C62_video_roundtrip_partial : forall u v, video_value v ->
  parse_video u (show_video v) = Parsed v <-> video_good (uni_word u) v.
Proof. exact CodecAv1P.video_exact. Qed.
Theorem C62_audio_roundtrip_partial : forall a, parse_audio (show_audio a) = Parsed a <-> audio_good a.
Proof. exact CodecAv1P.audio_exact. Qed.
(** Unknown names are kept as they are. *)
Theorem C62_video_unknown : forall u s, parse_video u s = Parsed (VUnknown s) <-> ~ known_video s.
Proof. exact CodecAv1P.parse_video_unknown. Qed.
Theorem C62_video_verbatim : forall u s t, parse_video u s = Parsed (VUnknown t) -> t = s.
Proof. exact CodecAv1P.unknown_same. Qed.
Theorem C62_audio_unknown : forall s, parse_audio s = Parsed (AUnknown s) <-> ~ known_audio s.
Proof. exact CodecAv1P.audio_unknown. Qed.
Theorem C62_audio_verbatim : forall s t, parse_audio s = Parsed (AUnknown t) -> t = s.
Proof. exact CodecAv1P.audio_unknown_same. Qed.
(** A codec that was read from a name can be printed and read again: always for audio and every video
    family but H.265, there under the condition of C58. *)
Theorem C62_video_reprint_partial : forall u s v, is_text s -> parse_video u s = Parsed v ->
  parse_video u (show_video v) = Parsed v <-> (forall h, v = H265 h -> h265_good h).
Proof. exact CodecAv1P.video_reprint_exact. Qed.
Theorem C62_audio_reprint : forall s a, parse_audio s = Parsed a -> parse_audio (show_audio a) = Parsed a.
Proof. exact CodecAv1P.audio_reprint. Qed.
(** An unknown codec built with a known name does not come back. *)
Theorem C62_refuted : exists v, video_value v /\ forall u, parse_video u (show_video v) = Parsed VP8 /\ v <> VP8.
Proof. exists (VUnknown (ascii "vp8")). split; [exact I|]. intros u. split; [reflexivity|discriminate]. Qed.
Example C62_case : video_good (uni_word ascii_only) (VUnknown (ascii "theora")) /\
  parse_video ascii_only (ascii "av01.0.04M.10.0.112.09.16.09.0") = Parsed (AV1 (Build_av1 x00 x04 77 x0a false true true x02 x09 x10 x09 false)) /\
  parse_audio (ascii "mp4a.40.2") = Parsed (AAC x02) /\ audio_good (AUnknown (ascii "flac")).
Proof.
  split; [|split; [reflexivity|split; [reflexivity|]]]; cbn [video_good audio_good].
  - apply (CodecAv1P.parse_video_unknown ascii_only). reflexivity.
  - apply CodecAv1P.audio_unknown. reflexivity.
Qed.

Print Assumptions C57_roundtrip.
Print Assumptions C57_accepts_exactly.
Print Assumptions C58_roundtrip_partial.
Print Assumptions C58_error_refuted.
Print Assumptions C58_silent_refuted.
Print Assumptions C59_roundtrip.
Print Assumptions C59_accepts_exactly.
Print Assumptions C60_roundtrip_partial.
Print Assumptions C60_refuted.
Print Assumptions C61_video_panics_partial.
Print Assumptions C61_audio.
Print Assumptions C61_refuted.
Print Assumptions C62_video_roundtrip_partial.
Print Assumptions C62_audio_roundtrip_partial.
Print Assumptions C62_video_unknown.
Print Assumptions C62_video_verbatim.
Print Assumptions C62_audio_unknown.
Print Assumptions C62_audio_verbatim.
Print Assumptions C62_video_reprint_partial.
Print Assumptions C62_audio_reprint.
Print Assumptions C62_refuted.
