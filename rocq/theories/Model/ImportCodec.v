(** What the importer of fragmented MP4 says about the tracks of a movie: [init], [init_video], [init_h265] and [init_audio]
    of rs/hang/src/cmaf/import.rs.  The boxes are those of the crate [mp4_atom], whose source is not in the repository: of each
    the fields read here are kept, and those the properties speak about.  What [encode_body] writes for a configuration box is
    part of it here: bytes, or an error. *)
From Coq Require Import NArith List Bool.
From Coq Require Import Strings.String.
From Coq Require Import Init.Byte Strings.Byte.
From Verif.Model Require Import Base Text Codec Catalog CatalogJson Import.
Import ListNotations.
Open Scope N_scope.
Open Scope list_scope.

(** [Visual]: the size, two [u16]. *)
Record visual := Visual { vs_width : N; vs_height : N }.
(** [Avcc] *)
Record avcc := Avcc { av_profile : byte; av_compat : byte; av_level : byte; av_body : bytes + N }.
(** [Hvcc]; the arrays have 4 and 6 bytes. *)
Record hvcc := Hvcc {
  hv_space : byte; hv_idc : byte; hv_compat : list byte; hv_tier : bool; hv_level : byte; hv_constraints : list byte;
  hv_body : bytes + N }.
(** [VpcC] *)
Record vpcc := Vpcc {
  vp_profile : byte; vp_level : byte; vp_depth : byte; vp_chroma : byte; vp_full : bool; vp_primaries : byte;
  vp_transfer : byte; vp_matrix : byte }.
(** [Av1c].  [twelve_bit] is not read by the importer. *)
Record av1c := Av1c {
  a_profile : byte; a_level : byte; a_tier : bool; a_high : bool; a_twelve : bool; a_mono : bool; a_x : bool; a_y : bool;
  a_pos : byte }.
(** [Audio]: channels and the integer part of the sample rate, two [u16]. *)
Record sound := Sound { so_channels : N; so_rate : N }.
(** [DecoderConfig] of [Esds].  [freq_index] is not read by the importer. *)
Record esds := Esds { es_type : byte; es_avg : N; es_max : N; es_profile : byte; es_freq : byte }.

(** [mp4_atom::Codec] as far as it is told apart. *)
Inductive sample_entry :=
| Avc1 (v : visual) (c : avcc) | Hev1 (v : visual) (c : hvcc) | Hvc1 (v : visual) (c : hvcc) | Vp08 (v : visual)
| Vp09 (v : visual) (c : vpcc) | Av01 (v : visual) (c : av1c) | Mp4a (a : sound) (d : esds) | OpusBox (a : sound)
| UnknownBox (name : bytes) | OtherBox.

(** [Trak]: the id, a [u32], the handler, the timescale, the sample entries. *)
Record mtrak := MTrak { mt_id : N; mt_hdlr : handler; mt_scale : N; mt_entries : list sample_entry }.

(** The errors of rs/hang/src/cmaf/error.rs returned by [init]. *)
Inductive cerror :=
| MissingCodec | MultipleCodecs | UnsupportedCodec (name : bytes) | UnsupportedTrack (subtitle : bool) | Mp4Error (n : N).

(** import.rs:111-115, 281-285 *)
Definition the_entry (l : list sample_entry) : sample_entry + cerror :=
  match l with [] => inr MissingCodec | [e] => inl e | _ => inr MultipleCodecs end.

Section Floats.
Context {F64 F32 : Type}.

(** The fields left alone in every [VideoConfig] of the importer. *)
Definition plain_video (codec : video) (description : option bytes) (v : visual) : @video_config F64 :=
  VideoConfig codec description (Some (vs_width v)) (Some (vs_height v)) None None None None None None None.

(** import.rs:243-273 [init_h265] *)
Definition init_h265 (t : track_info) (in_band : bool) (c : hvcc) (v : visual) : @video_info F64 + cerror :=
  match hv_body c with
  | inr e => inr (Mp4Error e)
  | inl d =>
    inl (VideoInfo t (plain_video
      (H265 {| h5_in_band := in_band; h5_space := hv_space c; h5_idc := hv_idc c; h5_compat := hv_compat c;
               h5_tier := hv_tier c; h5_level := hv_level c; h5_constraints := hv_constraints c |}) (Some d) v))
  end.

(** import.rs:207-212 *)
Definition bit_depth (tier high : bool) : byte :=
  match tier, high with true, true => x0c | true, false => x0a | false, true => x0a | false, false => x08 end.

(** import.rs:105-240 [init_video] *)
Definition init_video (k : mtrak) : @video_info F64 + cerror :=
  let t := TrackInfo (text "video" ++ show 10 (mt_id k)) 2 in
  match the_entry (mt_entries k) with
  | inr e => inr e
  | inl (Avc1 v c) =>                                                                   (* 118-146 *)
    match av_body c with
    | inr e => inr (Mp4Error e)
    | inl d =>
      inl (VideoInfo t (plain_video
        (H264 {| h4_profile := av_profile c; h4_constraints := av_compat c; h4_level := av_level c |}) (Some d) v))
    end
  | inl (Hev1 v c) => init_h265 t true c v                                              (* 147 *)
  | inl (Hvc1 v c) => init_h265 t false c v                                             (* 148 *)
  | inl (Vp08 v) => inl (VideoInfo t (plain_video VP8 None v))                          (* 149-165 *)
  | inl (Vp09 v c) =>                                                                   (* 166-197 *)
    inl (VideoInfo t (plain_video
      (VP9 (Build_vp9 (vp_profile c) (vp_level c) (vp_depth c) (vp_chroma c) (vp_primaries c) (vp_transfer c)
                      (vp_matrix c) (vp_full c))) None v))
  | inl (Av01 v c) =>                                                                   (* 198-234; [Default]: av1.rs:112-130 *)
    inl (VideoInfo t (plain_video
      (AV1 (Build_av1 (a_profile c) (a_level c) 77 (bit_depth (a_tier c) (a_high c)) (a_mono c) (a_x c) (a_y c) (a_pos c)
                      x01 x01 x01 false)) None v))
  | inl (UnknownBox n) => inr (UnsupportedCodec n)                                      (* 235 *)
  | inl _ => inr (UnsupportedCodec (text "unknown"))                                    (* 236 *)
  end.

(** import.rs:275-329 [init_audio].  The error names the four letters of an unknown box (L324). *)
Definition init_audio (k : mtrak) : audio_info + cerror :=
  let t := TrackInfo (text "audio" ++ show 10 (mt_id k)) 2 in
  match the_entry (mt_entries k) with
  | inr e => inr e
  | inl (Mp4a a d) =>
    if negb (Byte.eqb (es_type d) x40) then inr (UnsupportedCodec (text "MPEG2")) else
    inl (AudioInfo t (AudioConfig (AAC (es_profile d)) (so_rate a) (so_channels a) (Some (N.max (es_avg d) (es_max d))) None))
  | inl (OpusBox a) => inl (AudioInfo t (AudioConfig Opus (so_rate a) (so_channels a) None None))
  | inl (UnknownBox n) => inr (UnsupportedCodec n)
  | inl _ => inr (UnsupportedCodec (text "unknown"))
  end.

(** What [init] does to the broadcast: the tracks it made, in order; the catalog; every catalog published; and its own map
    from track ids to tracks.  [create_video] and [create_audio] (model/broadcast.rs:63-73) make a track, add it to the
    catalog and publish that; the tasks that take it out again wait for the track to end (C63). *)
Record movie := Movie {
  mo_made : list (rendition (@video_info F64) audio_info); mo_catalog : @catalog_info F64 F32;
  mo_published : list (@catalog_info F64 F32); mo_tracks : hmap nat }.
Definition add (r : rendition (@video_info F64) audio_info) (c : @catalog_info F64 F32) : @catalog_info F64 F32 :=
  match r with
  | RV v => Catalog (ct_video c ++ [v]) (ct_audio c) (ct_location c)
  | RA a => Catalog (ct_video c) (ct_audio c ++ [a]) (ct_location c)
  end.
Definition create (r : rendition (@video_info F64) audio_info) (id : N) (m : movie) : movie :=
  let c := add r (mo_catalog m) in
  Movie (mo_made m ++ [r]) c (mo_published m ++ [c]) (hput id (List.length (mo_made m)) (mo_tracks m)).

(** import.rs:78-103 [init]; storing the box itself is in [Import]. *)
Fixpoint init_movie (ks : list mtrak) (m : movie) : movie * option cerror :=
  match ks with
  | [] => (m, None)
  | k :: ks =>
    match mt_hdlr k with
    | Vide => match init_video k with inl v => init_movie ks (create (RV v) (mt_id k) m) | inr e => (m, Some e) end
    | Soun => match init_audio k with inl a => init_movie ks (create (RA a) (mt_id k) m) | inr e => (m, Some e) end
    | Sbtl => (m, Some (UnsupportedTrack true))
    | HOther => (m, Some (UnsupportedTrack false))
    end
  end.

(** A new broadcast *)
Definition movie_new : movie := Movie [] (Catalog [] [] None) [] [].
End Floats.
Arguments movie : clear implicits.
