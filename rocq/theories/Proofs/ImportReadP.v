(** Proofs for C126: reading the catalog of an imported movie. *)
From Coq Require Import NArith Arith List Bool Lia.
From Coq Require Import Strings.String.
From Coq Require Import Init.Byte Strings.Byte.
From Verif.Model Require Import Base Text Codec Json Catalog CatalogJson Import ImportCodec.
From Verif.Spec Require Import CodingSpec CodecSpec NativeSpec JsonSpec CatalogJsonSpec ImportCodecSpec.
From Verif.Proofs Require Import BaseP TextP CodecP CodecAv1P JsonP CatalogJsonP CatalogPrintP CatalogPanicP CatalogOrderP ImportCodecP ImportNameP.
From Verif.Proofs Require TokenP.
Import ListNotations.
Open Scope N_scope.
Open Scope list_scope.

(** ** Text *)
Definition low (s : bytes) : Prop := Forall (fun b => n_of b < 128) s.
Lemma low_text s : low s -> is_text s.
Proof. intros H. apply TokenP.ascii_bytes. intros b I. unfold low in H. rewrite Forall_forall in H. auto. Qed.
Lemma low_app a b : low a -> low b -> low (a ++ b).
Proof. intros A B. apply Forall_app. auto. Qed.
Lemma low_2x b : low (show2x b). Proof. apply forallb_ascii. destruct b; vm_compute; reflexivity. Qed.
Lemma low_X b : low (showX b). Proof. apply forallb_ascii. destruct b; vm_compute; reflexivity. Qed.
Lemma low_10 b : low (show10 b). Proof. exact (show10_ascii b). Qed.
Lemma low_02 b : low (show02 b). Proof. exact (show02_ascii b). Qed.
Lemma low_dot : low [dot]. Proof. apply forallb_ascii. reflexivity. Qed.
Lemma low_nil : low []. Proof. constructor. Qed.
Lemma low_M : low (utf8 77). Proof. apply forallb_ascii. reflexivity. Qed.
Ltac lows := repeat first [apply low_app | apply low_2x | apply low_X | apply low_10 | apply low_02 | apply low_dot | apply low_nil | apply low_M | apply forallb_ascii; reflexivity].
Lemma low_space b : Byte.to_N b <= 3 -> low (show_space b).
Proof. intros H. destruct (space_shown b H) as [[_ ->]|[[_ ->]|[[_ ->]|[_ ->]]]]; apply forallb_ascii; reflexivity. Qed.
Lemma low_concat l : low (List.concat (map showX l)).
Proof. induction l; cbn; lows. exact IHl. Qed.
Lemma low_join l : low (join dot (map showX l)).
Proof. induction l as [|b l IH]; cbn; [lows|]. destruct l as [|c l]; cbn [map] in *; [lows|]. apply low_app; [lows|]. apply (low_app [dot]); [lows|exact IH]. Qed.
Lemma low_h265 h : Byte.to_N (h5_space h) <= 3 -> low (show_h265 h).
Proof.
  intros H. unfold show_h265. cbv zeta. apply low_app; [destruct (h5_in_band h); lows|]. apply low_app; [lows|]. apply low_app; [apply low_space, H|].
  apply low_app; [lows|]. apply low_app; [lows|]. apply low_app; [apply low_concat|]. apply low_app; [lows|].
  apply low_app; [destruct (h5_tier h); lows|]. apply low_app; [lows|]. apply low_app; [lows|]. apply low_join.
Qed.
Lemma low_vp9 v : low (show_vp9 v).
Proof. unfold show_vp9. lows. destruct (_ && _ && _ && _ && _); lows. Qed.
Lemma low_av1 a : a1_tier a = 77 -> low (show_av1 a).
Proof. intros T. unfold show_av1. rewrite T. lows. destruct (_ && _ && _ && _ && _ && _ && _ && _); lows. Qed.

(** ** Names that cannot be read *)
Lemma all_zero l : (forall i, at_ l i = 0) -> drop_zeros (rev l) = [].
Proof.
  intros H. destruct (drop_zeros (rev l)) eqn:E; [reflexivity|]. destruct (proj2 (exists_nonzero l)) as [i N]; [congruence|]. destruct N. apply H.
Qed.
Lemma pbind_got {A B} (p : parsed A) (f : A -> parsed B) b : pbind p f = Parsed b -> exists a, f a = Parsed b.
Proof. destruct p; cbn; try discriminate. eauto. Qed.
Lemma hevc_unread h h' : (forall i, at_ (h5_compat h) i = 0) \/ (forall i, at_ (h5_constraints h) i = 0) -> parse_h265 (show_h265 h) <> Parsed h'.
Proof.
  intros Z. unfold parse_h265. rewrite split_show, split_tail. cbv iota beta zeta. destruct (negb _); [discriminate|].
  destruct (show_space (h5_space h) ++ show10 (h5_idc h)) as [|b r]; [discriminate|]. intros G. apply pbind_got in G. destruct G as [d G].
  apply pbind_got in G. destruct G as [x G]. destruct Z as [Z|Z]; rewrite (all_zero _ Z) in G.
  - cbn in G. discriminate.
  - destruct (parse_uint _ _ _); [|discriminate]. destruct (_ ++ show10 (h5_level h)) as [|t q]; [discriminate|]. destruct (_ || _); [|discriminate].
    apply pbind_got in G. destruct G as [e G]. apply pbind_got in G. destruct G as [y G]. cbn in G. discriminate.
Qed.
Lemma av1_unread u a a' : a1_tier a = 77 -> 2 <= n_of (a1_profile a) <= 9 -> parse_av1 u (show_av1 a) <> Parsed a'.
Proof.
  intros T [P1 P2]. unfold parse_av1. rewrite (chars_show a) by (left; rewrite T; reflexivity). unfold av1_short.
  replace (m10 (a1_profile a)) with [48 + n_of (a1_profile a)] by (symmetry; apply show10_1, P2).
  set (r := if plainb a then _ else _). change (map n_of (text "av01.")) with [97; 118; 48; 49; 46]. cbn [app].
  set (cs := 97 :: _). destruct (matches (rx_base u) cs) eqn:M.
  { assert (M' := matches_nth _ _ 5 _ 0 M eq_refl). cbv beta in M'. unfold cs, between in M'. cbn [nth] in M'. lia. }
  destruct (matches (rx_base u ++ rx_extra u) cs) eqn:M2.
  { assert (M' := matches_nth _ _ 5 _ 0 M2 eq_refl). cbv beta in M'. unfold cs, between in M'. cbn [nth] in M'. lia. }
  discriminate.
Qed.
Lemma starts_h265 h u : parse_video u (show_h265 h) = pmap H265 (parse_h265 (show_h265 h)).
Proof.
  assert (E : exists r, show_h265 h = text "hev1." ++ r \/ show_h265 h = text "hvc1." ++ r) by (unfold show_h265; cbv zeta; destruct (h5_in_band h); eexists; [left|right]; reflexivity).
  destruct E as (r & [-> | ->]); reflexivity.
Qed.
Lemma starts_av1 a u : parse_video u (show_av1 a) = pmap AV1 (parse_av1 u (show_av1 a)).
Proof.
  assert (E : exists r, show_av1 a = text "av01." ++ r) by (unfold show_av1; eexists; reflexivity). destruct E as (r & ->). reflexivity.
Qed.

(** ** Values *)
Lemma called_value kind k t : low (ascii kind) -> called kind k t -> track_value t.
Proof.
  intros L [(n & (_ & N & _) & E) P]. split; [|rewrite P; vm_compute; discriminate]. rewrite E. apply low_text, low_app; [exact L|].
  exact (numeral_ascii 10 _ _ ltac:(lia) N).
Qed.
Section Floats.
Context {F64 F32 : Type}.
Lemma within_16 n : n < 2 ^ 16 -> within u32_max (Some n).
Proof. intros H x [= <-]. change (2 ^ 16) with 65536 in H. unfold u32_max. lia. Qed.
Lemma video_ok k (i : @video_info F64) : trak_value k -> video_described k i ->
  track_value (vi_track i) /\ video_config_value (vi_config i) /\
  forall w, video_good w (vc_codec (vi_config i)) <-> Forall readable_entry (mt_entries k).
Proof.
  intros [_ Ev] (C & e & v & Ee & Cp & Pic & W & H & R1 & R2 & B & _). rewrite Ee in *. inversion_clear Ev as [|? ? V _].
  split; [apply (called_value "video" k); [apply forallb_ascii; reflexivity|exact C]|].
  assert (D : visual_value v -> video_value (vc_codec (vi_config i)) -> low (show_video (vc_codec (vi_config i))) -> video_config_value (vi_config i)).
  { intros [V1 V2] X Y. unfold video_config_value. rewrite W, H, R1, R2, B. repeat split; auto using low_text, within_16; intros n [=]. }
  assert (Z : forall w, (video_good w (vc_codec (vi_config i)) <-> readable_entry e) ->
    (video_good w (vc_codec (vi_config i)) <-> Forall readable_entry [e])).
  { intros w X. rewrite X. split; [intros Y; repeat constructor; exact Y|intros Y; inversion Y; assumption]. }
  destruct e as [v0 c|v0 c|v0 c|v0|v0 c|v0 c|a d|a|n|]; cbn [pictured] in Pic; try contradiction;
    destruct Pic as [Pv _]; subst v0; cbn [entry_value] in V; unfold video_copied in Cp; destruct (vc_codec (vi_config i)) as [h|h|x|x| |s]; try contradiction.
  - split; [apply D; [exact V|exact I|cbn [show_video]; unfold show_h264; lows]|]. intros w. apply Z. cbn. tauto.
  - destruct V as [V (L1 & L2 & L3)]. destruct Cp as (E1 & E2 & E3 & E4 & E5 & E6 & E7).
    split; [apply D; [exact V|split; congruence|apply low_h265; rewrite E2; exact L3]|]. intros w. apply Z. cbn. unfold h265_good. rewrite E2, E4, E7.
    split; [tauto|]. intros Q. split; [lia|exact Q].
  - destruct V as [V (L1 & L2 & L3)]. destruct Cp as (E1 & E2 & E3 & E4 & E5 & E6 & E7).
    split; [apply D; [exact V|split; congruence|apply low_h265; rewrite E2; exact L3]|]. intros w. apply Z. cbn. unfold h265_good. rewrite E2, E4, E7.
    split; [tauto|]. intros Q. split; [lia|exact Q].
  - split; [apply D; [exact V|exact I|apply forallb_ascii; reflexivity]|]. intros w. apply Z. cbn. tauto.
  - split; [apply D; [exact V|exact I|apply low_vp9]|]. intros w. apply Z. cbn. tauto.
  - destruct V as [V (L1 & L2 & L3)]. destruct Cp as (E1 & E2 & E3 & E4 & E5 & E6 & E7 & E8 & E9 & E10 & E11 & E12).
    split; [apply D; [exact V|red; cbn; unfold av1_value; rewrite E7; left; reflexivity|apply low_av1, E7]|].
    intros w. apply Z. cbn. unfold av1_good. rewrite E1, E2, E6, E7. split; [tauto|]. intros Q. split; [exact Q|]. split; [lia|].
    split; [cbn in E8; destruct E8 as [<-|[<-|[<-|[]]]]; vm_compute; discriminate|].
    split; [left; split; [reflexivity|]; right; left; lia|]. right. rewrite E9, E10, E11. repeat split; try (vm_compute; discriminate). exact L3.
Qed.
Lemma audio_ok k i : trak_value k -> audio_described k i ->
  track_value (ai_track i) /\ audio_config_value (ai_config i) /\ audio_good (ac_codec (ai_config i)) /\ Forall readable_entry (mt_entries k).
Proof.
  intros [_ Ev] (C & Dn & e & Ee & M). rewrite Ee in *. inversion_clear Ev as [|? ? V _].
  split; [apply (called_value "audio" k); [apply forallb_ascii; reflexivity|exact C]|]. unfold audio_config_value.
  destruct e as [v0 c|v0 c|v0 c|v0|v0 c|v0 c|a d|a|n|]; try contradiction; cbn [entry_value] in V.
  - destruct V as ([V1 V2] & V3 & V4). destruct M as (E1 & E2 & E3 & m & Lm & E4). rewrite E1, E2, E3, E4. change (2 ^ 16) with 65536 in *. change (2 ^ 32) with 4294967296 in *.
    split; [|split; [exact I|repeat constructor]]. unfold u32_max. split; [apply low_text; cbn [show_audio]; lows|]. split; [lia|]. split; [lia|].
    intros n [= <-]. unfold u64_max. destruct Lm as [[->| ->] _]; lia.
  - destruct V as [V1 V2]. destruct M as (E1 & E2 & E3 & E4). rewrite E1, E2, E3, E4. change (2 ^ 16) with 65536 in *.
    split; [|split; [exact I|repeat constructor]]. unfold u32_max. split; [apply low_text; cbn [show_audio]; lows|]. split; [lia|]. split; [lia|]. intros n [=].
Qed.

Context (f64_text : F64 -> option bytes) (f64_of : bytes -> option F64) (f32_text : F32 -> option bytes) (f32_of : bytes -> option F32)
  (f32_0 f32_1 : F32) (u : unicode).

Lemma movie_value ks (l : list (rendition (@video_info F64) audio_info)) : Forall2 described ks l -> Forall trak_value ks ->
  Forall (fun i => track_value (vi_track i) /\ video_config_value (vi_config i)) (videos l) /\
  Forall (fun i => track_value (ai_track i) /\ audio_config_value (ai_config i)) (audios l) /\
  ((Forall (fun i => video_good (uni_word u) (vc_codec (vi_config i)) /\
       (forall x, vc_framerate (vi_config i) = Some x \/ vc_rotation (vi_config i) = Some x -> f64_good f64_text f64_of x)) (videos l) /\
    Forall (fun i => audio_good (ac_codec (ai_config i))) (audios l)) <->
   Forall (fun k => Forall readable_entry (mt_entries k)) ks).
Proof.
  induction 1 as [|k r ks l D F IH]; intros V; [repeat split; constructor|]. inversion_clear V as [|? ? Vk Vs].
  destruct (IH Vs) as (I1 & I2 & I3). unfold described in D. destruct (mt_hdlr k), r as [i|i]; try contradiction; unfold videos, audios; cbn [flat_map app].
  - destruct (video_ok k i Vk D) as (T & C & G). split; [constructor; auto|]. split; [exact I2|].
    split.
    + intros [A B]. inversion_clear A as [|? ? A1 A2]. constructor; [exact (proj1 (G (uni_word u)) (proj1 A1))|]. apply I3. split; [exact A2|exact B].
    + intros A. inversion_clear A as [|? ? A1 A2]. destruct (proj2 I3 A2) as [A3 B]. split; [|exact B]. constructor; [|exact A3].
      split; [apply G, A1|]. destruct D as (_ & e & v & _ & _ & _ & _ & _ & _ & _ & _ & Ff & _ & Fr & _). intros x [Q|Q]; congruence.
  - destruct (audio_ok k i Vk D) as (T & C & G & Re). split; [exact I1|]. split; [constructor; auto|].
    split.
    + intros [A B]. inversion_clear B as [|? ? B1 B2]. constructor; [exact Re|]. apply I3. split; [exact A|exact B2].
    + intros A. inversion_clear A as [|? ? A1 A2]. destruct (proj2 I3 A2) as [A3 B]. split; [exact A3|]. constructor; [exact G|exact B].
Qed.
Lemma imported_value ks (m : movie F64 F32) : made_of ks m -> Forall trak_value ks -> catalog_value (mo_catalog m).
Proof.
  intros (D & (Lv & La & Lo) & _) V. destruct (movie_value ks (mo_made m) D V) as (A & B & _). split; [rewrite Lv; exact A|]. split; [rewrite La; exact B|].
  intros o E. congruence.
Qed.
Lemma imported_good ks (m : movie F64 F32) : made_of ks m -> Forall trak_value ks ->
  catalog_good f64_text f64_of f32_text f32_of u (mo_catalog m) <-> Forall (fun k => Forall readable_entry (mt_entries k)) ks.
Proof.
  intros (D & (Lv & La & Lo) & _) V. destruct (movie_value ks (mo_made m) D V) as (_ & _ & G). rewrite <- G. unfold catalog_good. rewrite Lv, La, Lo.
  split; [intros (A & B & _); auto|]. intros [A B]. repeat split; auto; discriminate.
Qed.

(** ** One unreadable name *)
Hypothesis N64 : forall x t, f64_text x = Some t -> json_number t.
Hypothesis N32 : forall x t, f32_text x = Some t -> json_number t.
Lemma one_spoils nulls (c : @catalog_info F64 F32) i : In i (ct_video c) -> is_text (show_video (vc_codec (vi_config i))) ->
  (forall v, parse_video u (show_video (vc_codec (vi_config i))) <> Parsed v) ->
  forall c', parse_catalog f64_of f32_of f32_0 f32_1 u (print_catalog f64_text f32_text nulls c) <> Got c'.
Proof.
  intros I T Bad c' G. pose proof (wf_catalog f64_text f32_text N64 N32 nulls c) as W.
  unfold parse_catalog, print_catalog in G. rewrite (proj2 (read_json_exact _ _) (document_print _ W)) in G.
  apply (reads_catalog f64_of f32_of f32_0 f32_1 u _ _ W) in G. rewrite j_catalog_slots in G. destruct G as (_ & G & _).
  assert (F : filled (ct_video c) (JArr (map (j_video f64_text) (ct_video c))) = Some (JArr (map (j_video f64_text) (ct_video c))))
    by (destruct (ct_video c); [destruct I|reflexivity]).
  rewrite (or_slot catalog_names (catalog_slots f64_text f32_text nulls c) "video" 0 _ catalog_plain catalog_nodup eq_refl eq_refl _ _ _ _ F) in G.
  destruct G as (vs & [= <-] & G). destruct (In_nth_error _ _ I) as [n E].
  assert (X : exists j, is_video_info f64_of u (j_video f64_text i) j).
  { clear -G E. revert n E. remember (map (j_video f64_text) (ct_video c)) as m eqn:M. revert M. generalize (ct_video c). induction G as [|x y m l' H G IH]; intros [|a l] M n E; try discriminate.
    - destruct n; discriminate.
    - injection M as -> ->. destruct n as [|n]; cbn in E; [injection E as ->; eauto|]. eapply IH; eauto. }
  destruct X as [j X]. rewrite j_video_slots in X. destruct X as (_ & _ & X).
  rewrite (has_slot info_names (info_slots (vi_track i) (j_video_config f64_text (vi_config i))) "config" 1 _ info_plain info_nodup eq_refl eq_refl _ _ _ eq_refl) in X.
  rewrite j_video_config_slots in X. destruct X as (_ & X & _).
  rewrite (has_slot video_config_names (video_config_slots f64_text (vi_config i)) "codec" 0 _ video_config_plain video_config_nodup eq_refl eq_refl _ _ _ eq_refl) in X.
  destruct X as (s & S & P). apply string_inj in S; [|exact T]. subst s. exact (Bad _ P).
Qed.
Lemma videos_in ks (l : list (rendition (@video_info F64) audio_info)) k e : Forall2 described ks l -> In k ks -> In e (mt_entries k) -> unreadable_entry e ->
  exists i, In i (videos l) /\ video_described k i.
Proof.
  intros D I E U. induction D as [|k' r ks l D F IH]; [destruct I|]. destruct I as [->|I].
  - unfold described in D. destruct (mt_hdlr k), r as [i|i]; try contradiction; [exists i; split; [left; reflexivity|exact D]|].
    destruct D as (_ & _ & e' & Ee & M). rewrite Ee in E. destruct E as [<-|[]]. destruct e'; try contradiction.
  - destruct (IH I) as (i & Ii & Di). exists i. split; [|exact Di]. unfold videos. cbn [flat_map]. apply in_or_app. right. exact Ii.
Qed.
Lemma movie_spoiled nulls ks (m : movie F64 F32) k e : made_of ks m -> Forall trak_value ks -> In k ks -> In e (mt_entries k) -> unreadable_entry e ->
  forall c', parse_catalog f64_of f32_of f32_0 f32_1 u (print_catalog f64_text f32_text nulls (mo_catalog m)) <> Got c'.
Proof.
  intros (D & (Lv & La & Lo) & _) V Ik Ie U. destruct (videos_in ks _ k e D Ik Ie U) as (i & Ii & Di).
  rewrite Forall_forall in V. destruct (video_ok k i (V k Ik) Di) as (_ & Vc & _).
  apply (one_spoils nulls _ i); [rewrite Lv; exact Ii|apply Vc|]. specialize (V k Ik). destruct V as [_ Ev].
  destruct Di as (_ & e' & v & Ee & Cp & Pic & _). rewrite Ee in *. destruct Ie as [<-|[]]. inversion_clear Ev as [|? ? W _].
  unfold video_copied in Cp. destruct e' as [v0 c|v0 c|v0 c|v0|v0 c|v0 c|a d|a|n|]; cbn in U; try contradiction; destruct (vc_codec (vi_config i)) as [h|h|x|x| |s]; try contradiction; cbn [show_video]; intros w.
  - rewrite starts_h265. destruct Cp as (E1 & E2 & E3 & E4 & E5 & E6 & E7). rewrite <- E4, <- E7 in U.
    destruct (parse_h265 (show_h265 h)) eqn:G; try discriminate. destruct (hevc_unread h a U G).
  - rewrite starts_h265. destruct Cp as (E1 & E2 & E3 & E4 & E5 & E6 & E7). rewrite <- E4, <- E7 in U.
    destruct (parse_h265 (show_h265 h)) eqn:G; try discriminate. destruct (hevc_unread h a U G).
  - rewrite starts_av1. destruct Cp as (E1 & _ & _ & _ & _ & _ & E7 & _). destruct W as [_ (L1 & _)]. rewrite <- E1 in U, L1.
    destruct (parse_av1 u (show_av1 x)) eqn:G; try discriminate. destruct (av1_unread u x a E7 (conj U (N.le_trans _ 7 9 L1 ltac:(lia))) G).
Qed.
End Floats.
