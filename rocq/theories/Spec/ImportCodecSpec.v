(** What a catalog should say about the tracks of a movie, stated on the boxes of the movie and on text. *)
From Coq Require Import NArith List Bool.
From Coq Require Import Strings.String.
From Coq Require Import Init.Byte Strings.Byte.
From Verif.Model Require Import Base Codec Catalog CatalogJson Import ImportCodec.
From Verif.Spec Require Import CodingSpec CodecSpec.
Import ListNotations.
Open Scope N_scope.
Open Scope list_scope.

(** ** The movies there are: what the types of the fields allow *)
Definition visual_value (v : visual) : Prop := vs_width v < 2 ^ 16 /\ vs_height v < 2 ^ 16.
Definition sound_value (a : sound) : Prop := so_channels a < 2 ^ 16 /\ so_rate a < 2 ^ 16.
(** The fields of [hvcC] and [av1C] that are narrower in the file: a 2-bit profile space; 3, 5 and 2 bits. *)
Definition hvcc_value (c : hvcc) : Prop :=
  List.length (hv_compat c) = 4%nat /\ List.length (hv_constraints c) = 6%nat /\ Byte.to_N (hv_space c) <= 3.
Definition av1c_value (c : av1c) : Prop := Byte.to_N (a_profile c) <= 7 /\ Byte.to_N (a_level c) <= 31 /\ Byte.to_N (a_pos c) <= 3.
Definition entry_value (e : sample_entry) : Prop :=
  match e with
  | Avc1 v _ | Vp08 v | Vp09 v _ => visual_value v
  | Hev1 v c | Hvc1 v c => visual_value v /\ hvcc_value c
  | Av01 v c => visual_value v /\ av1c_value c
  | Mp4a a d => sound_value a /\ es_avg d < 2 ^ 32 /\ es_max d < 2 ^ 32
  | OpusBox a => sound_value a
  | UnknownBox _ | OtherBox => True
  end.
Definition trak_value (k : mtrak) : Prop := mt_id k < 2 ^ 32 /\ Forall entry_value (mt_entries k).

(** ** C123: which movies are taken *)
Definition video_entry (e : sample_entry) : Prop :=
  match e with
  | Avc1 _ c => exists d, av_body c = inl d
  | Hev1 _ c | Hvc1 _ c => exists d, hv_body c = inl d
  | Vp08 _ | Vp09 _ _ | Av01 _ _ => True
  | _ => False
  end.
(** MPEG-4 audio only: object type 0x40. *)
Definition audio_entry (e : sample_entry) : Prop :=
  match e with Mp4a _ d => es_type d = x40 | OpusBox _ => True | _ => False end.
Definition supported (k : mtrak) : Prop :=
  exists e, mt_entries k = [e] /\
    match mt_hdlr k with Vide => video_entry e | Soun => audio_entry e | _ => False end.
(** Why a track is refused. *)
Definition refusal (k : mtrak) (e : cerror) : Prop :=
  match mt_hdlr k with
  | Sbtl => e = UnsupportedTrack true
  | HOther => e = UnsupportedTrack false
  | h =>
    match mt_entries k with
    | [] => e = MissingCodec
    | _ :: _ :: _ => e = MultipleCodecs
    | [x] =>
      match x, h with
      | UnknownBox n, _ => e = UnsupportedCodec n
      | Avc1 _ c, Vide => exists n, av_body c = inr n /\ e = Mp4Error n
      | (Hev1 _ c | Hvc1 _ c), Vide => exists n, hv_body c = inr n /\ e = Mp4Error n
      | Mp4a _ d, Soun => es_type d <> x40 /\ e = UnsupportedCodec (ascii "MPEG2")
      | (Vp08 _ | Vp09 _ _ | Av01 _ _), Vide | OpusBox _, Soun => False
      | _, _ => e = UnsupportedCodec (ascii "unknown")
      end
    end
  end.

(** ** C123: what the catalog says of a track *)
(** A number in decimal, without needless zeros. *)
Definition decimal_text (v : N) (t : list byte) : Prop :=
  t <> [] /\ numeral 10 v t /\ (hd_error t = Some x30 -> t = [x30]).
Definition called (kind : string) (k : mtrak) (t : track_info) : Prop :=
  (exists n, decimal_text (mt_id k) n /\ ti_name t = ascii kind ++ n) /\ ti_priority t = 2.
(** The fields of the codec are copied from the box; for AV1 the tier is always M, the colours are the default ones, and the
    bit depth is one of three, see C125. *)
Definition video_copied (e : sample_entry) (c : video) : Prop :=
  match e, c with
  | Avc1 _ a, H264 h => h4_profile h = av_profile a /\ h4_constraints h = av_compat a /\ h4_level h = av_level a
  | Hev1 _ a, H265 h | Hvc1 _ a, H265 h =>
    h5_in_band h = (match e with Hev1 _ _ => true | _ => false end) /\
    h5_space h = hv_space a /\ h5_idc h = hv_idc a /\ h5_compat h = hv_compat a /\ h5_tier h = hv_tier a /\
    h5_level h = hv_level a /\ h5_constraints h = hv_constraints a
  | Vp08 _, VP8 => True
  | Vp09 _ a, VP9 v =>
    v9_profile v = vp_profile a /\ v9_level v = vp_level a /\ v9_depth v = vp_depth a /\ v9_chroma v = vp_chroma a /\
    v9_primaries v = vp_primaries a /\ v9_transfer v = vp_transfer a /\ v9_matrix v = vp_matrix a /\ v9_full v = vp_full a
  | Av01 _ a, AV1 v =>
    a1_profile v = a_profile a /\ a1_level v = a_level a /\ a1_mono v = a_mono a /\ a1_x v = a_x a /\ a1_y v = a_y a /\
    a1_pos v = a_pos a /\ a1_tier v = 77 /\ In (a1_depth v) [x08; x0a; x0c] /\
    a1_color v = x01 /\ a1_transfer v = x01 /\ a1_matrix v = x01 /\ a1_full v = false
  | _, _ => False
  end.
(** The picture size, and the configuration to hand to the decoder, which is that of the file for H.264 and H.265 and absent
    otherwise. *)
Definition pictured (e : sample_entry) (v : visual) (d : option bytes) : Prop :=
  match e with
  | Avc1 x c => v = x /\ exists b, av_body c = inl b /\ d = Some b
  | Hev1 x c | Hvc1 x c => v = x /\ exists b, hv_body c = inl b /\ d = Some b
  | Vp08 x | Vp09 x _ | Av01 x _ => v = x /\ d = None
  | _ => False
  end.
Section Floats.
Context {F64 F32 : Type}.
Definition video_described (k : mtrak) (i : @video_info F64) : Prop :=
  called "video" k (vi_track i) /\
  exists e v, mt_entries k = [e] /\ video_copied e (vc_codec (vi_config i)) /\ pictured e v (vc_description (vi_config i)) /\
    vc_width (vi_config i) = Some (vs_width v) /\ vc_height (vi_config i) = Some (vs_height v) /\
    vc_ratio_width (vi_config i) = None /\ vc_ratio_height (vi_config i) = None /\ vc_bitrate (vi_config i) = None /\
    vc_framerate (vi_config i) = None /\ vc_latency (vi_config i) = None /\ vc_rotation (vi_config i) = None /\
    vc_flip (vi_config i) = None.
Definition larger (a b m : N) : Prop := (m = a \/ m = b) /\ a <= m /\ b <= m.
Definition audio_described (k : mtrak) (i : audio_info) : Prop :=
  called "audio" k (ai_track i) /\ ac_description (ai_config i) = None /\
  exists e, mt_entries k = [e] /\
    match e with
    | Mp4a a d =>
      ac_codec (ai_config i) = AAC (es_profile d) /\ ac_rate (ai_config i) = so_rate a /\
      ac_channels (ai_config i) = so_channels a /\
      exists m, larger (es_avg d) (es_max d) m /\ ac_bitrate (ai_config i) = Some m
    | OpusBox a =>
      ac_codec (ai_config i) = Opus /\ ac_rate (ai_config i) = so_rate a /\ ac_channels (ai_config i) = so_channels a /\
      ac_bitrate (ai_config i) = None
    | _ => False
    end.
Definition described (k : mtrak) (r : rendition (@video_info F64) audio_info) : Prop :=
  match mt_hdlr k, r with
  | Vide, RV v => video_described k v
  | Soun, RA a => audio_described k a
  | _, _ => False
  end.
(** The catalog that lists these tracks, in order. *)
Definition videos (l : list (rendition (@video_info F64) audio_info)) : list video_info :=
  flat_map (fun r => match r with RV v => [v] | RA _ => [] end) l.
Definition audios (l : list (rendition (@video_info F64) audio_info)) : list audio_info :=
  flat_map (fun r => match r with RA a => [a] | RV _ => [] end) l.
Definition lists (l : list (rendition (@video_info F64) audio_info)) (c : @catalog_info F64 F32) : Prop :=
  ct_video c = videos l /\ ct_audio c = audios l /\ ct_location c = None.
(** The tracks made are those of [ks]; each time one was made, the catalog listing it and those before it was published; and
    the samples for an id go to the last of them with that id. *)
Definition made_of (ks : list mtrak) (m : movie F64 F32) : Prop :=
  Forall2 described ks (mo_made m) /\ lists (mo_made m) (mo_catalog m) /\
  List.length (mo_published m) = List.length ks /\
  (forall i c, nth_error (mo_published m) i = Some c -> lists (firstn (S i) (mo_made m)) c) /\
  (forall id t, hget id (mo_tracks m) = Some t <->
     (exists k, nth_error ks t = Some k /\ mt_id k = id) /\
     forall t' k, nth_error ks t' = Some k -> mt_id k = id -> (t' <= t)%nat).

(** ** C124: names *)
Definition name_of (r : rendition (@video_info F64) audio_info) : bytes :=
  match r with RV v => ti_name (vi_track v) | RA a => ti_name (ai_track a) end.
End Floats.

(** The movie as the other half of the importer sees it (C64 to C66). *)
Definition code_of (e : cerror) : N :=
  match e with MissingCodec => 0 | MultipleCodecs => 1 | UnsupportedCodec _ => 2 | UnsupportedTrack _ => 3 | Mp4Error n => 4 + n end.
Definition stands_for (k : mtrak) (t : trak) : Prop :=
  tk_id t = mt_id k /\ tk_hdlr t = mt_hdlr k /\ tk_scale t = mt_scale k /\
  match tk_codec t with
  | None => supported k \/ mt_hdlr k = Sbtl \/ mt_hdlr k = HOther
  | Some n => exists e, refusal k e /\ n = code_of e
  end.

(** ** C125: the names the standards give to codecs *)
(** Hexadecimal or decimal, zeros in front allowed; a byte in two digits. *)
Definition numeral_text (radix v : N) (t : list byte) : Prop := t <> [] /\ numeral radix v t.
Definition pair_text (radix v : N) (t : list byte) : Prop := numeral radix v t /\ List.length t = 2%nat.

(** RFC 6381, 3.3: [avc1.PPCCLL] *)
Definition avc_name (c : avcc) (s : list byte) : Prop :=
  exists p q l, s = ascii "avc1." ++ p ++ q ++ l /\
    pair_text 16 (Byte.to_N (av_profile c)) p /\ pair_text 16 (Byte.to_N (av_compat c)) q /\ pair_text 16 (Byte.to_N (av_level c)) l.

(** ISO/IEC 14496-15, E.3: profile space and profile; the 32 compatibility flags in reverse bit order, in hexadecimal; tier and
    level; the bytes of the constraint flags in hexadecimal, of which trailing zeros may be left out. *)
Definition flags32 (l : list byte) : N :=
  ((Byte.to_N (nth 0 l x00) * 256 + Byte.to_N (nth 1 l x00)) * 256 + Byte.to_N (nth 2 l x00)) * 256 + Byte.to_N (nth 3 l x00).
Definition mirrored (w : N) (a b : N) : Prop :=
  b < 2 ^ w /\ forall i, i < w -> N.testbit b i = N.testbit a (w - 1 - i).
Definition space_text (b : byte) (t : list byte) : Prop :=
  (Byte.to_N b = 0 /\ t = []) \/ (Byte.to_N b = 1 /\ t = ascii "A") \/ (Byte.to_N b = 2 /\ t = ascii "B") \/
  (Byte.to_N b = 3 /\ t = ascii "C").
Definition hevc_name (in_band : bool) (c : hvcc) (s : list byte) : Prop :=
  exists space idc compat w level cs k,
    dotted (ascii (if in_band then "hev1" else "hvc1") :: (space ++ idc) :: compat ::
            (ascii (if hv_tier c then "H" else "L") ++ level) :: cs) s /\
    space_text (hv_space c) space /\ decimal_text (Byte.to_N (hv_idc c)) idc /\
    mirrored 32 (flags32 (hv_compat c)) w /\ numeral_text 16 w compat /\
    decimal_text (Byte.to_N (hv_level c)) level /\
    Forall2 (fun t b => numeral_text 16 (Byte.to_N b) t) cs (firstn k (hv_constraints c)) /\
    Forall (fun b => b = x00) (skipn k (hv_constraints c)).

(** VP Codec ISO Media File Format Binding: two digits each; the last five only together, and they have defaults. *)
Definition two_text (v : N) (t : list byte) : Prop := numeral 10 v t /\ List.length t = (if v <? 100 then 2 else 3)%nat.
Definition vp9_name (c : vpcc) (s : list byte) : Prop :=
  exists ps, dotted (ascii "vp09" :: ps) s /\
    let l := [vp_profile c; vp_level c; vp_depth c] in
    let r := [vp_chroma c; vp_primaries c; vp_transfer c; vp_matrix c; if vp_full c then x01 else x00] in
    (Forall2 (fun p b => two_text (Byte.to_N b) p) ps (l ++ r) \/
     (Forall2 (fun p b => two_text (Byte.to_N b) p) ps l /\ r = [x01; x01; x01; x01; x00])).

(** AV1 Codec ISO Media File Format Binding, 5: profile, level and tier, bit depth; then, only together and with defaults,
    monochrome, chroma subsampling, and colours.  The bit depth is that of the AV1 specification, 5.5.2.  The colours are not in
    the box, so any are allowed here. *)
Definition av1_depth (c : av1c) : N :=
  if (Byte.to_N (a_profile c) =? 2) && a_high c then (if a_twelve c then 12 else 10)
  else if a_high c then 10 else 8.
Definition digit1 (b : bool) : list byte := if b then ascii "1" else ascii "0".
Definition av1_chroma (c : av1c) (t : list byte) : Prop :=
  exists p, t = digit1 (a_x c) ++ digit1 (a_y c) ++ p /\ List.length p = 1%nat /\
    numeral 10 (if a_x c && a_y c then Byte.to_N (a_pos c) else 0) p.
Definition av1_name (c : av1c) (s : list byte) : Prop :=
  exists p l d ps, dotted (ascii "av01" :: p :: (l ++ ascii (if a_tier c then "H" else "M")) :: d :: ps) s /\
    List.length p = 1%nat /\ numeral 10 (Byte.to_N (a_profile c)) p /\
    pair_text 10 (Byte.to_N (a_level c)) l /\ pair_text 10 (av1_depth c) d /\
    ((ps = [] /\ a_mono c = false /\ av1_chroma c (ascii "110")) \/
     (exists chroma c1 c2 c3 full n1 n2 n3, ps = [digit1 (a_mono c); chroma; c1; c2; c3; digit1 full] /\ av1_chroma c chroma /\
        pair_text 10 n1 c1 /\ pair_text 10 n2 c2 /\ pair_text 10 n3 c3)).

(** The codec registry of WebCodecs for VP8 and Opus; RFC 6381, 3.3 for MPEG-4 audio. *)
Definition standard_name (e : sample_entry) (s : list byte) : Prop :=
  match e with
  | Avc1 _ c => avc_name c s
  | Hev1 _ c => hevc_name true c s
  | Hvc1 _ c => hevc_name false c s
  | Vp08 _ => s = ascii "vp8"
  | Vp09 _ c => vp9_name c s
  | Av01 _ c => av1_name c s
  | Mp4a _ d => exists n, s = ascii "mp4a.40." ++ n /\ decimal_text (Byte.to_N (es_profile d)) n
  | OpusBox _ => s = ascii "opus"
  | UnknownBox _ | OtherBox => False
  end.
Section Named.
Context {F64 : Type}.
Definition codec_text (r : rendition (@video_info F64) audio_info) : list byte :=
  match r with RV v => show_video (vc_codec (vi_config v)) | RA a => show_audio (ac_codec (ai_config a)) end.
End Named.
(** The boxes with a right name, when of the compatibility flags only the first eight are used. *)
Definition palindrome (b : byte) : Prop := mirrored 8 (Byte.to_N b) (Byte.to_N b).
Definition hevc_right (c : hvcc) : Prop :=
  nth 0 (hv_compat c) x00 <> x00 /\ palindrome (nth 0 (hv_compat c) x00) /\ exists i, at_ (hv_constraints c) i <> 0.
Definition av1_right (c : av1c) : Prop :=
  a_tier c = false /\ ~ (Byte.to_N (a_profile c) = 2 /\ a_high c = true /\ a_twelve c = true) /\
  (a_x c && a_y c = false -> a_pos c = x00).
Definition right_entry (e : sample_entry) : Prop :=
  match e with Hev1 _ c | Hvc1 _ c => hevc_right c | Av01 _ c => av1_right c | _ => True end.
Definition first_flags (e : sample_entry) : Prop :=
  match e with Hev1 _ c | Hvc1 _ c => exists b, hv_compat c = [b; x00; x00; x00] | _ => True end.
(** The general profiles of Rec. ITU-T H.265, A.3: a stream of profile [n] sets flag [n]; Main also sets flag 2, and Main Still
    Picture 1 and 2.  Flag [j] is bit [31 - j]. *)
Definition hevc_profile (c : hvcc) : Prop :=
  In (hv_compat c) [[x60; x00; x00; x00]; [x20; x00; x00; x00]; [x70; x00; x00; x00]; [x08; x00; x00; x00]].

(** ** C126: which boxes give a catalog that can be read *)
Definition readable_entry (e : sample_entry) : Prop :=
  match e with
  | Hev1 _ c | Hvc1 _ c =>
    (exists i, at_ (hv_compat c) i <> 0) /\
    (forall i j, (i < j)%nat -> at_ (hv_compat c) j <> 0 -> 16 <= at_ (hv_compat c) i) /\
    (exists i, at_ (hv_constraints c) i <> 0)
  | Av01 _ c => Byte.to_N (a_profile c) <= 1
  | _ => True
  end.
(** And which make it unreadable. *)
Definition unreadable_entry (e : sample_entry) : Prop :=
  match e with
  | Hev1 _ c | Hvc1 _ c => (forall i, at_ (hv_compat c) i = 0) \/ (forall i, at_ (hv_constraints c) i = 0)
  | Av01 _ c => 2 <= Byte.to_N (a_profile c)
  | _ => False
  end.
(** The sampling frequency of MPEG-4 audio, ISO/IEC 14496-3, 1.6.3.4: the two that do not fit a sample entry. *)
Definition high_rate (d : esds) (hz : N) : Prop :=
  (es_freq d = x00 /\ hz = 96000) \/ (es_freq d = x01 /\ hz = 88200).
