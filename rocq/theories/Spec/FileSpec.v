(** What importing a whole fragmented MP4 file means: its boxes, in order (ISO/IEC 14496-12, 8.8). *)
From Coq Require Import NArith ZArith List Bool.
From Coq Require Import Init.Byte Strings.Byte.
From Verif.Model Require Import Base Media Import.
From Verif.Spec Require Import ImportSpec.
Import ListNotations.
Open Scope N_scope.

(** The tracks made from the [trak] boxes of all headers are numbered in order; an id belongs to the last
    track made with it. *)
Definition table (ks : list trak) : hmap nat := rev (combine (map tk_id ks) (seq 0 (length ks))).

(** A fragment: media data, after a fragment header, under a file header. *)
Record fragment := Fragment {
  fg_moov : moov; fg_tracks : hmap nat; fg_msize : N; fg_hsize : N; fg_data : bytes; fg_moof : moof }.
(** The fragments of the boxes [l], after header [hdr], tracks [ks] and fragment header [frag]. *)
Fixpoint fragments (l : list (atom * nat)) (hdr : option moov) (ks : list trak) (frag : option (moof * N)) : list fragment :=
  match l with
  | [] => []
  | (AMoov v, _) :: l => fragments l (Some v) (ks ++ mv_trak v) frag
  | (AMoof f, n) :: l => fragments l hdr ks (Some (f, N.of_nat n))
  | (AMdat d, n) :: l =>
      match hdr, frag with
      | Some v, Some (f, msize) => Fragment v (table ks) msize (N.of_nat n - len d) d f :: fragments l hdr ks None
      | _, _ => []
      end
  | (AType, _) :: l | (AOther, _) :: l => fragments l hdr ks frag
  end.

(** A track that can be imported: video or audio, in a known codec. *)
Definition supported (k : trak) : Prop := (tk_hdlr k = Vide \/ tk_hdlr k = Soun) /\ tk_codec k = None.
(** Where the samples of a fragment are, by the importer's rule. *)
Definition places_in (g : fragment) : list place :=
  places (run_from (fg_msize g) (fg_hsize g)) (fg_moov g) (fg_tracks g) (fg_msize g) (fg_moof g).
(** All its tracks can be read, and all its samples are inside its data. *)
Definition readable (g : fragment) : Prop :=
  forallb (good (fg_moov g) (fg_tracks g) (fg_msize g)) (fg_moof g) = true /\ Forall (inside (fg_data g)) (places_in g).
(** A file in order: supported tracks only; media data comes after a file header, and after exactly one
    fragment header of its own; everything can be read. *)
Fixpoint sound (l : list (atom * nat)) (hdr : option moov) (ks : list trak) (frag : option (moof * N)) : Prop :=
  match l with
  | [] => True
  | (AMoov v, _) :: l => Forall supported (mv_trak v) /\ sound l (Some v) (ks ++ mv_trak v) frag
  | (AMoof f, n) :: l => frag = None /\ sound l hdr ks (Some (f, N.of_nat n))
  | (AMdat d, n) :: l =>
      match hdr, frag with
      | Some v, Some (f, msize) => readable (Fragment v (table ks) msize (N.of_nat n - len d) d f) /\ sound l hdr ks None
      | _, _ => False
      end
  | (AType, _) :: l | (AOther, _) :: l => sound l hdr ks frag
  end.

(** The samples of a file, each with the media data it is in. *)
Definition samples_of (l : list (atom * nat)) : list (bytes * place) :=
  flat_map (fun g => map (pair (fg_data g)) (places_in g)) (fragments l None [] None).
Definition imports (p : bytes * place) (x : nat * mframe) : Prop := written_for (fst p) (snd p) x.
(** The values in the headers are in range. *)
Definition in_range (w : N) (l : list (atom * nat)) : Prop :=
  Forall (fun g => Forall (fields w (fg_moov g)) (leading (good (fg_moov g) (fg_tracks g) (fg_msize g)) (fg_moof g)))
    (fragments l None [] None).
(** The [trak] boxes of all headers. *)
Definition traks_of (l : list (atom * nat)) : list trak := flat_map (fun p => match fst p with AMoov v => mv_trak v | _ => [] end) l.
Definition headers (l : list (atom * nat)) : list moov := flat_map (fun p => match fst p with AMoov v => [v] | _ => [] end) l.

(** * Keyframes *)

(** Of a sample: the id of its track, whether that is video, its flags, and the audio tracks of the file header in force. *)
Record info := Info { in_id : N; in_video : bool; in_flags : N; in_audio : list N }.
Definition is_video (k : trak) : bool := match tk_hdlr k with Vide => true | _ => false end.
Definition audio_of (v : moov) : list N := map tk_id (filter (fun k => match tk_hdlr k with Soun => true | _ => false end) (mv_trak v)).
Definition infos_of (v : moov) (tracks : hmap nat) (msize : N) (tf : traf) : list info :=
  match resolved v tracks msize tf with
  | None => []
  | Some (_, k, _, run) => map (fun e => Info (tf_id tf) (is_video k) (flags_of v tf e) (audio_of v)) (tr_entries run)
  end.
Definition infos (l : list (atom * nat)) : list info :=
  flat_map (fun g => flat_map (infos_of (fg_moov g) (fg_tracks g) (fg_msize g)) (leading (good (fg_moov g) (fg_tracks g) (fg_msize g)) (fg_moof g)))
    (fragments l None [] None).

(** ISO/IEC 14496-12, 8.8.3.1: [sample_depends_on] is 2, it depends on no other; [sample_is_non_sync_sample] is 0. *)
Definition sync (flags : N) : Prop := (flags / 2 ^ 24) mod 4 = 2 /\ (flags / 2 ^ 16) mod 2 = 0.
(** The last keyframe of track [id] among [hist] is at time [t], and since then there was no video keyframe under a header in
    which [id] is an audio track. *)
Definition recent (hist : list (info * mframe)) (id t : N) : Prop :=
  exists pre i x post, hist = pre ++ (i, x) :: post /\ in_id i = id /\ mf_key x = true /\ mf_ts x = t /\
    Forall (fun p => mf_key (snd p) = true -> in_id (fst p) <> id /\ (in_video (fst p) = true -> ~ In id (in_audio (fst p)))) post.
(** The rule for keyframes: of video, the sync samples.  Of audio, all but those that follow a recent
    keyframe of their track within 10 seconds. *)
Definition starts (hist : list (info * mframe)) (i : info) (ts : N) : Prop :=
  if in_video i then sync (in_flags i) else ~ exists t, recent hist (in_id i) t /\ ts <= t + 10 * 10 ^ 9.
Definition keyed (hist : list (info * mframe)) : Prop :=
  forall pre i x post, hist = pre ++ (i, x) :: post -> (mf_key x = true <-> starts pre i (mf_ts x)).
(** So that audio can be joined wherever video can: after a video keyframe, the first frame of an audio track is one too. *)
Definition joined (hist : list (info * mframe)) : Prop :=
  forall pre j y mid i x post, hist = pre ++ (j, y) :: mid ++ (i, x) :: post -> in_video j = true -> mf_key y = true ->
    in_video i = false -> Forall (fun p => in_id (fst p) <> in_id i) mid -> mf_key x = true.
