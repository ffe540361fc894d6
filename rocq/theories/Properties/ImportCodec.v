(** Properties C123 to C126: the catalog of an imported movie. *)
From Coq Require Import NArith List Bool Lia.
From Coq Require Import Strings.String.
From Coq Require Import Init.Byte Strings.Byte.
From Verif.Model Require Import Base Text Codec Json Catalog CatalogJson Import ImportCodec.
From Verif.Spec Require Import CodingSpec CodecSpec JsonSpec CatalogJsonSpec ImportCodecSpec.
From Verif.Proofs Require Import CatalogPrintP ImportCodecP ImportNameP ImportReadP.
Import ListNotations.
Open Scope N_scope.
Open Scope list_scope.

(** A film used in the examples below: H.264 and AAC. *)
Definition size : visual := Visual 1280 720.
Definition avc : avcc := Avcc x64 x00 x1f (inl [x01; x64; x00; x1f]).
Definition film : list mtrak :=
  [MTrak 1 Vide 90000 [Avc1 size avc]; MTrak 2 Soun 44100 [Mp4a (Sound 2 44100) (Esds x40 128000 160000 x02 x04)]].
(** The floats of a catalog; the importer sets none. *)
Notation movies := (movie unit unit).
Definition no_text (x : unit) : option bytes := None.
Definition no_float (t : bytes) : option unit := None.
Definition read_back := parse_catalog no_float no_float tt tt (Build_unicode (fun _ => false) (fun _ => false)).
Definition write (m : movies) := print_catalog no_text no_text false (mo_catalog m).
Definition imported (ks : list mtrak) : movies := fst (init_movie ks movie_new).

(** ** C123: the catalog of an imported movie *)
(** A movie is taken exactly if each of its tracks is one that can be described; the catalog then lists those tracks in order, each
    with what its box says, and every catalog on the way listed those made so far. *)
Theorem C123_taken : forall F64 F32 ks, (exists m : movie F64 F32, init_movie ks movie_new = (m, None)) <-> Forall supported ks.
Proof. intros. apply imported_iff. Qed.
Print Assumptions C123_taken.
Theorem C123_catalog : forall F64 F32 ks (m : movie F64 F32), init_movie ks movie_new = (m, None) -> Forall supported ks /\ made_of ks m.
Proof. intros F64 F32. exact imported_all. Qed.
Print Assumptions C123_catalog.
(** Otherwise the first that cannot be described is refused, for the reason given; those before it stay published. *)
Theorem C123_refused : forall F64 F32 ks e (m : movie F64 F32), init_movie ks movie_new = (m, Some e) ->
  exists ks1 k ks2, ks = ks1 ++ k :: ks2 /\ Forall supported ks1 /\ ~ supported k /\ refusal k e /\ made_of ks1 m.
Proof. intros F64 F32. exact imported_some. Qed.
Print Assumptions C123_refused.
(** This is the importer of C64 to C66, seen from the catalog. *)
Theorem C123_refines : forall F64 F32 ks ts (m : movie F64 F32) o, Forall2 stands_for ks ts -> init_movie ks movie_new = (m, o) ->
  exists s', init_traks ts imp_new = (s', match o with
      | None => IOk
      | Some (UnsupportedTrack b) => IErr (EUnsupportedTrack b)
      | Some e => IErr (ECodec (code_of e))
      end) /\ im_tracks s' = mo_tracks m /\ List.length (im_made s') = List.length (mo_made m).
Proof.
  intros F64 F32 ks ts m o D E. destruct (init_agrees ks ts movie_new imp_new m o D eq_refl eq_refl E) as (s' & A & B & C). exists s'. auto.
Qed.
Print Assumptions C123_refines.
Example C123_meets : exists m : movies, init_movie film movie_new = (m, None) /\ Forall trak_value film /\
  map vc_width (map vi_config (ct_video (mo_catalog m))) = [Some 1280] /\ map ac_bitrate (map ai_config (ct_audio (mo_catalog m))) = [Some 160000].
Proof. eexists. split; [vm_compute; reflexivity|]. split; [repeat constructor; cbn; lia|]. split; vm_compute; reflexivity. Qed.
Example C123_refused_meets : exists m : movies, init_movie (film ++ [MTrak 3 Sbtl 1000 []]) movie_new = (m, Some (UnsupportedTrack true)).
Proof. eexists. vm_compute. reflexivity. Qed.

(** A movie that is refused leaves nothing behind. *)
Definition C123_atomic : Prop := forall ks (m : movies) e, init_movie ks movie_new = (m, Some e) -> mo_published m = [].
Theorem C123_atomic_refuted : exists ks (m : movies) e, init_movie ks movie_new = (m, Some e) /\ mo_published m <> [].
Proof. exists (film ++ [MTrak 3 Sbtl 1000 []]). do 2 eexists. split; [vm_compute; reflexivity|discriminate]. Qed.
Print Assumptions C123_atomic_refuted.
(** The rate in the catalog is that of the audio. *)
Definition C123_rate : Prop := forall ks (m : movies), init_movie ks movie_new = (m, None) -> Forall trak_value ks ->
  forall n k i a d hz, nth_error ks n = Some k -> nth_error (mo_made m) n = Some (RA i) -> mt_entries k = [Mp4a a d] -> high_rate d hz -> ac_rate (ai_config i) = hz.
(** At these rates it never is. *)
Theorem C123_high_rate : forall F64 F32 ks (m : movie F64 F32) o, init_movie ks movie_new = (m, o) ->
  forall n k r a d hz, nth_error ks n = Some k -> nth_error (mo_made m) n = Some r -> trak_value k -> mt_entries k = [Mp4a a d] -> high_rate d hz ->
  exists i, r = RA i /\ ac_rate (ai_config i) < hz.
Proof.
  intros F64 F32 ks m o E n k r a d hz Ek Er V Ee H. destruct (nth_from ks m o n k r E Ek Er) as [(_ & v & -> & I)|(_ & i & -> & I)].
  - unfold init_video in I. rewrite Ee in I. discriminate.
  - exists i. split; [reflexivity|]. unfold init_audio in I. rewrite Ee in I. cbn [the_entry] in I. destruct (negb _); [discriminate|]. injection I as <-. cbn [ai_config ac_rate].
    destruct V as [_ V]. rewrite Ee in V. inversion_clear V as [|? ? W' _]. destruct W' as [[_ W] _]. change (2 ^ 16) with 65536 in W. destruct H as [[_ ->]|[_ ->]]; lia.
Qed.
Print Assumptions C123_high_rate.
(** Such a movie: 96 kHz, and what a writer puts into the 16 bits. *)
Definition studio : list mtrak := [MTrak 1 Soun 96000 [Mp4a (Sound 2 0) (Esds x40 256000 256000 x02 x00)]].
Example C123_rate_meets : high_rate (Esds x40 256000 256000 x02 x00) 96000 /\ Forall trak_value studio /\
  map ac_rate (map ai_config (ct_audio (mo_catalog (imported studio)))) = [0].
Proof. split; [left; split; reflexivity|]. split; [repeat constructor; cbn; lia|vm_compute; reflexivity]. Qed.
Theorem C123_rate_refuted : exists ks (m : movies) k i a d hz, init_movie ks movie_new = (m, None) /\ Forall trak_value ks /\
  nth_error ks 0 = Some k /\ nth_error (mo_made m) 0 = Some (RA i) /\ mt_entries k = [Mp4a a d] /\ high_rate d hz /\ ac_rate (ai_config i) <> hz.
Proof.
  exists studio. do 5 eexists. exists 96000. split; [vm_compute; reflexivity|]. split; [repeat constructor; cbn; lia|]. split; [reflexivity|]. split; [reflexivity|].
  split; [reflexivity|]. split; [left; split; reflexivity|vm_compute; discriminate].
Qed.
Print Assumptions C123_rate_refuted.

(** ** C124: the names of the tracks *)
(** The names differ exactly if no two tracks have the same kind and id; none is that of the catalog. *)
Theorem C124_distinct : forall F64 F32 ks (m : movie F64 F32), made_of ks m ->
  NoDup (map name_of (mo_made m)) <-> NoDup (map (fun k => (mt_hdlr k, mt_id k)) ks).
Proof. intros F64 F32. exact names_distinct_iff. Qed.
Print Assumptions C124_distinct.
Theorem C124_catalog : forall F64 F32 ks (m : movie F64 F32), made_of ks m -> ~ In (ascii "catalog.json") (map name_of (mo_made m)).
Proof.
  intros F64 F32 ks m (D & _) I. apply in_map_iff in I. destruct I as (r & E & I). revert E. induction D as [|k r' ks l K D IH]; [destruct I|].
  destruct I as [-> | I]; [apply (not_catalog k _ K)|apply IH, I].
Qed.
Print Assumptions C124_catalog.
Example C124_meets : NoDup (map name_of (mo_made (imported film))) /\ map name_of (mo_made (imported film)) = [ascii "video1"; ascii "audio2"].
Proof. split; [|vm_compute; reflexivity]. apply (C124_distinct _ _ film); [apply C123_catalog; vm_compute; reflexivity|]. repeat constructor; cbn; intuition discriminate. Qed.
(** Whatever the file, no name is given twice. *)
Definition C124_unique : Prop := forall ks (m : movies), init_movie ks movie_new = (m, None) -> NoDup (map name_of (mo_made m)).
Theorem C124_unique_refuted : exists ks (m : movies), init_movie ks movie_new = (m, None) /\ Forall trak_value ks /\ ~ NoDup (map name_of (mo_made m)).
Proof.
  exists [MTrak 1 Vide 90000 [Avc1 size avc]; MTrak 1 Vide 90000 [Vp08 size]]. eexists. split; [vm_compute; reflexivity|]. split; [repeat constructor; cbn; lia|].
  intros N. inversion_clear N as [|? ? X _]. apply X. left. reflexivity.
Qed.
Print Assumptions C124_unique_refuted.
(** And a second header in the same stream gives the names of the first one again. *)
Theorem C124_again : forall F64 F32 ks (m : movie F64 F32), ks <> [] -> init_movie (ks ++ ks) movie_new = (m, None) ->
  ~ NoDup (map name_of (mo_made m)).
Proof.
  intros F64 F32 ks m N E D. apply (C124_distinct F64 F32 (ks ++ ks) m (proj2 (C123_catalog _ _ _ _ E))) in D.
  destruct ks as [|k ks]; [congruence|]. rewrite map_app in D. cbn in D. inversion_clear D as [|? ? X _]. apply X. apply in_or_app. right. left. reflexivity.
Qed.
Print Assumptions C124_again.
Theorem C124_second : forall F64 F32 ks ks' (m : movie F64 F32), init_movie (ks ++ ks') m = match init_movie ks m with (m', None) => init_movie ks' m' | r => r end.
Proof. intros. apply init_app. Qed.
Print Assumptions C124_second.
Example C124_again_meets : snd (init_movie (F64 := unit) (F32 := unit) (film ++ film) movie_new) = None.
Proof. vm_compute. reflexivity. Qed.

(** ** C125: codecs have their standard names *)
Definition C125_names : Prop := forall ks (m : movies) o n k r, init_movie ks movie_new = (m, o) -> nth_error ks n = Some k -> nth_error (mo_made m) n = Some r ->
  trak_value k -> forall e, In e (mt_entries k) -> standard_name e (codec_text r).
(** The name in the catalog is a standard one exactly for these boxes.  Missing: H.265 with compatibility flags beyond the first
    eight. *)
Theorem C125_names_partial : forall F64 F32 ks (m : movie F64 F32) o n k r, init_movie ks movie_new = (m, o) ->
  nth_error ks n = Some k -> nth_error (mo_made m) n = Some r -> trak_value k ->
  forall e, In e (mt_entries k) -> first_flags e -> standard_name e (codec_text r) <-> right_entry e.
Proof. intros. eapply named_one; eauto. eapply nth_from; eassumption. Qed.
Print Assumptions C125_names_partial.
Theorem C125_hevc_partial : forall F64 F32 ks (m : movie F64 F32) o n k r, init_movie ks movie_new = (m, o) ->
  nth_error ks n = Some k -> nth_error (mo_made m) n = Some r -> trak_value k ->
  forall e v c, In e (mt_entries k) -> e = Hev1 v c \/ e = Hvc1 v c -> readable_entry e -> Forall palindrome (hv_compat c) -> standard_name e (codec_text r).
Proof. intros. eapply named_hevc; eauto. eapply nth_from; eassumption. Qed.
Print Assumptions C125_hevc_partial.
(** None of the general profiles of H.265 has its standard name: the bytes of the flags are reversed, their bits are not. *)
Theorem C125_hevc_profiles : forall F64 F32 ks (m : movie F64 F32) o n k r, init_movie ks movie_new = (m, o) ->
  nth_error ks n = Some k -> nth_error (mo_made m) n = Some r -> trak_value k ->
  forall e v c, In e (mt_entries k) -> e = Hev1 v c \/ e = Hvc1 v c -> hevc_profile c -> ~ standard_name e (codec_text r).
Proof.
  intros F64 F32 ks m o n k r E Ek Er V e v c I K P S. assert (O : first_flags e).
  { unfold hevc_profile in P. cbn [In] in P. destruct K as [-> | ->]; cbn; destruct P as [P|[P|[P|[P|[]]]]]; rewrite <- P; eauto. }
  apply (C125_names_partial F64 F32 ks m o n k r E Ek Er V e I O) in S. apply (not_palindrome c P). destruct K as [-> | ->]; exact S.
Qed.
Print Assumptions C125_hevc_profiles.
Definition main : hvcc := Hvcc x00 x01 [x60; x00; x00; x00] false x5d [xb0; x00; x00; x00; x00; x00] (inl [x01]).
Example C125_hevc_meets : hevc_profile main /\ trak_value (MTrak 1 Vide 90000 [Hvc1 size main]) /\
  map codec_text (mo_made (imported [MTrak 1 Vide 90000 [Hvc1 size main]])) = [ascii "hvc1.1.60.L93.B0"].
Proof. split; [left; reflexivity|]. split; [repeat constructor; cbn; lia|vm_compute; reflexivity]. Qed.
Theorem C125_names_refuted : exists ks (m : movies) k r e, init_movie ks movie_new = (m, None) /\ nth_error ks 0 = Some k /\
  nth_error (mo_made m) 0 = Some r /\ trak_value k /\ In e (mt_entries k) /\ ~ standard_name e (codec_text r).
Proof.
  exists [MTrak 1 Vide 90000 [Hvc1 size main]]. do 3 eexists. exists (Hvc1 size main). split; [vm_compute; reflexivity|]. split; [reflexivity|]. split; [reflexivity|].
  assert (T : trak_value (MTrak 1 Vide 90000 [Hvc1 size main])) by (repeat constructor; cbn; lia). split; [exact T|]. split; [left; reflexivity|].
  apply (C125_hevc_profiles unit unit [MTrak 1 Vide 90000 [Hvc1 size main]] _ None 0 _ _ eq_refl eq_refl eq_refl T _ size main (or_introl eq_refl) (or_intror eq_refl) (or_introl eq_refl)).
Qed.
Print Assumptions C125_names_refuted.
(** The high tier of AV1 is called the main tier, and 12 bits are called 10. *)
Definition high8 : av1c := Av1c x00 x0c true false false false true true x00.
Definition twelve : av1c := Av1c x02 x0c false true true false true true x00.
Theorem C125_av1_refuted : exists ks (m : movies) k r e, init_movie ks movie_new = (m, None) /\ nth_error ks 0 = Some k /\
  nth_error (mo_made m) 0 = Some r /\ trak_value k /\ In e (mt_entries k) /\ ~ standard_name e (codec_text r).
Proof.
  exists [MTrak 1 Vide 90000 [Av01 size high8]]. do 3 eexists. exists (Av01 size high8). split; [vm_compute; reflexivity|]. split; [reflexivity|]. split; [reflexivity|].
  assert (T : trak_value (MTrak 1 Vide 90000 [Av01 size high8])) by (repeat constructor; cbn; lia). split; [exact T|]. split; [left; reflexivity|].
  intros S. apply (C125_names_partial unit unit [MTrak 1 Vide 90000 [Av01 size high8]] _ None 0 _ _ eq_refl eq_refl eq_refl T _ (or_introl eq_refl) I) in S. destruct S as [S _]. discriminate.
Qed.
Print Assumptions C125_av1_refuted.
Example C125_av1_shown : map codec_text (mo_made (imported [MTrak 1 Vide 90000 [Av01 size high8]; MTrak 2 Vide 90000 [Av01 size twelve]])) =
  [ascii "av01.0.12M.10"; ascii "av01.2.12M.10"] /\ av1_depth high8 = 8 /\ av1_depth twelve = 12.
Proof. split; [vm_compute; reflexivity|]. split; reflexivity. Qed.
(** The bit depth in the catalog is that of the video exactly if these agree. *)
Theorem C125_av1_depth_exact : forall F64 F32 ks (m : movie F64 F32) o n k r v c, init_movie ks movie_new = (m, o) ->
  nth_error ks n = Some k -> nth_error (mo_made m) n = Some r -> mt_entries k = [Av01 v c] ->
  exists i x, r = RV i /\ vc_codec (vi_config i) = AV1 x /\
    (Byte.to_N (a1_depth x) = av1_depth c <->
     (a_tier c = true <-> Byte.to_N (a_profile c) = 2 /\ a_high c = true /\ a_twelve c = true)).
Proof.
  intros F64 F32 ks m o n k r v c E Ek Er Ee. destruct (nth_from ks m o n k r E Ek Er) as [(_ & i & -> & I)|(_ & i & -> & I)].
  - unfold init_video in I. rewrite Ee in I. cbn [the_entry] in I. injection I as <-. do 2 eexists. split; [reflexivity|]. split; [reflexivity|].
    cbn [a1_depth]. unfold av1_depth. destruct (N.eqb_spec (Byte.to_N (a_profile c)) 2) as [P|P], (a_tier c), (a_high c), (a_twelve c);
      vm_compute; intuition (try congruence; auto).
  - unfold init_audio in I. rewrite Ee in I. cbn [the_entry] in I. discriminate.
Qed.
Print Assumptions C125_av1_depth_exact.
Definition even : hvcc := Hvcc x00 x01 [x66; x00; x00; x00] false x5d [xb0; x00; x00; x00; x00; x00] (inl [x01]).
Example C125_meets : first_flags (Hev1 size even) /\ right_entry (Hev1 size even) /\ readable_entry (Hev1 size even) /\ Forall palindrome (hv_compat even) /\
  right_entry (Av01 size (Av1c x00 x04 false true false false true true x00)) /\
  map codec_text (mo_made (imported [MTrak 3 Vide 90000 [Hev1 size even]])) = [ascii "hev1.1.66.L93.B0"].
Proof.
  assert (P : forall b, b = x66 \/ b = x00 -> palindrome b).
  { intros b B. split; [destruct B as [-> | ->]; vm_compute; reflexivity|]. intros i L. assert (Z : i = 0 \/ i = 1 \/ i = 2 \/ i = 3 \/ i = 4 \/ i = 5 \/ i = 6 \/ i = 7) by lia.
    destruct B as [-> | ->]; destruct Z as [->|[->|[->|[->|[->|[->|[->| ->]]]]]]]; reflexivity. }
  split; [exists x66; reflexivity|]. split; [split; [discriminate|]; split; [apply P; left; reflexivity|exists 0%nat; discriminate]|].
  split; [split; [exists 0%nat; discriminate|]; split; [|exists 0%nat; discriminate]|].
  - intros i j L N. destruct j as [|[|[|[|[|j]]]]]; try lia; destruct N; reflexivity.
  - split; [repeat constructor; apply P; auto|]. split; [|vm_compute; reflexivity]. split; [reflexivity|]. split; [intros (Q & _); discriminate|discriminate].
Qed.

(** ** C126: the catalog can be read *)
(** What the importer published is read back by a player exactly if every box is one of these. *)
Definition C126_readable : Prop := forall ks (m : movies), init_movie ks movie_new = (m, None) -> Forall trak_value ks -> read_back (write m) = Got (mo_catalog m).
Theorem C126_exact : forall F64 F32 (f64_text : F64 -> option bytes) f64_of (f32_text : F32 -> option bytes) f32_of f32_0 f32_1 u nulls ks m,
  (forall x t, f64_text x = Some t -> json_number t) -> (forall x t, f32_text x = Some t -> json_number t) -> made_of ks m -> Forall trak_value ks ->
  parse_catalog f64_of f32_of f32_0 f32_1 u (print_catalog f64_text f32_text nulls (mo_catalog m)) = Got (mo_catalog m) <->
  Forall (fun k => Forall readable_entry (mt_entries k)) ks.
Proof.
  intros until m. intros N64 N32 M V. rewrite catalog_roundtrip by first [assumption | eapply imported_value; eassumption]. apply imported_good; assumption.
Qed.
Print Assumptions C126_exact.
Example C126_meets : made_of film (imported film) /\ Forall trak_value film /\ read_back (write (imported film)) = Got (mo_catalog (imported film)).
Proof. split; [apply C123_catalog; vm_compute; reflexivity|]. split; [repeat constructor; cbn; lia|vm_compute; reflexivity]. Qed.
(** One such box, and nothing of the catalog can be read, not even the other tracks. *)
Theorem C126_spoiled : forall F64 F32 (f64_text : F64 -> option bytes) (f64_of : bytes -> option F64) (f32_text : F32 -> option bytes) (f32_of : bytes -> option F32) f32_0 f32_1 u,
  (forall x t, f64_text x = Some t -> json_number t) -> (forall x t, f32_text x = Some t -> json_number t) ->
  forall nulls ks (m : movie F64 F32) k e, made_of ks m -> Forall trak_value ks -> In k ks -> In e (mt_entries k) -> unreadable_entry e ->
  forall c, parse_catalog f64_of f32_of f32_0 f32_1 u (print_catalog f64_text f32_text nulls (mo_catalog m)) <> Got c.
Proof. intros. eapply movie_spoiled; eassumption. Qed.
Print Assumptions C126_spoiled.
(** The same for any catalog: one codec whose name is not read. *)
Theorem C126_one_name : forall F64 F32 (f64_text : F64 -> option bytes) (f64_of : bytes -> option F64) (f32_text : F32 -> option bytes) (f32_of : bytes -> option F32) f32_0 f32_1 u,
  (forall x t, f64_text x = Some t -> json_number t) -> (forall x t, f32_text x = Some t -> json_number t) ->
  forall nulls (c : @catalog_info F64 F32) i, In i (ct_video c) -> is_text (show_video (vc_codec (vi_config i))) ->
  (forall v, parse_video u (show_video (vc_codec (vi_config i))) <> Parsed v) ->
  forall c', parse_catalog f64_of f32_of f32_0 f32_1 u (print_catalog f64_text f32_text nulls c) <> Got c'.
Proof. intros. eapply one_spoils; eassumption. Qed.
Print Assumptions C126_one_name.
(** H.265 without constraint flags: its catalog is refused. *)
Definition unflagged : hvcc := Hvcc x00 x01 [x60; x00; x00; x00] false x5d [x00; x00; x00; x00; x00; x00] (inl [x01]).
Theorem C126_readable_refuted : exists ks (m : movies), init_movie ks movie_new = (m, None) /\ Forall trak_value ks /\ read_back (write m) = Refused.
Proof.
  exists (film ++ [MTrak 3 Vide 90000 [Hvc1 size unflagged]]). eexists. split; [vm_compute; reflexivity|]. split; [repeat constructor; cbn; lia|]. vm_compute. reflexivity.
Qed.
Print Assumptions C126_readable_refuted.
Example C126_spoiled_meets : unreadable_entry (Hvc1 size unflagged) /\ unreadable_entry (Av01 size twelve) /\
  map codec_text (mo_made (imported [MTrak 3 Vide 90000 [Hvc1 size unflagged]])) = [ascii "hvc1.1.60.L93."].
Proof.
  split; [right; intros i; do 7 (destruct i as [|i]; [reflexivity|]); destruct i; reflexivity|]. split; [vm_compute; discriminate|vm_compute; reflexivity].
Qed.
(** And one that is read as another. *)
Theorem C126_other_refuted : exists ks (m : movies) c, init_movie ks movie_new = (m, None) /\ Forall trak_value ks /\ read_back (write m) = Got c /\ c <> mo_catalog m.
Proof.
  exists [MTrak 3 Vide 90000 [Hvc1 size (Hvcc x00 x01 [x08; x60; x00; x00] false x5d [xb0; x00; x00; x00; x00; x00] (inl [x01]))]]. do 2 eexists.
  split; [vm_compute; reflexivity|]. split; [repeat constructor; cbn; lia|]. split; [vm_compute; reflexivity|discriminate].
Qed.
Print Assumptions C126_other_refuted.
