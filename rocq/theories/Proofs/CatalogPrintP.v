(** Catalogs and feedback printed as JSON and read back. *)
From Coq Require Import NArith Arith.
From Coq Require Import Strings.String.
From Coq Require Import List Lia Bool.
From Coq Require Import Init.Byte Strings.Byte.
From Verif.Model Require Import Base Map Text Codec Json Native Catalog CatalogJson.
From Verif.Spec Require Import CodingSpec CodecSpec NativeSpec JsonSpec CatalogJsonSpec.
From Verif.Proofs Require Import BaseP MapP TextP CodecAv1P NativeP JsonP CatalogJsonP.
Import ListNotations.
Open Scope N_scope.
Local Notation length := List.length.

(** ** Printing *)
Definition slot (k : bytes) (o : option json) : list (bytes * json) := match o with Some v => [(k, v)] | None => [] end.
Fixpoint slots (names : list bytes) (os : list (option json)) : list (bytes * json) :=
  match names, os with k :: ns, o :: os => slot k o ++ slots ns os | _, _ => [] end.
Definition plain (k : bytes) : Prop := escape k = k /\ is_text k.
Lemma plain_text k s : plain k -> text_of k s <-> s = k.
Proof.
  intros [E T]. assert (X : text_of k k) by (rewrite <- E at 1; apply escape_text; exact T).
  split; [|intros ->; exact X]. intros H. apply string_of_complete in H, X. congruence.
Qed.
Lemma plain_spelling k : plain k -> spelling k.
Proof. intros [E _]. rewrite <- E. apply escape_inside. Qed.
Lemma slots_in names : forall os raw x, In (raw, x) (slots names os) <-> exists i, nth_error names i = Some raw /\ nth_error os i = Some (Some x).
Proof.
  induction names as [|k names IH]; intros [|o os] raw x; cbn [slots].
  1-3: split; [intros []|intros ([|i] & A & B); discriminate].
  rewrite in_app_iff, IH. split.
  - intros [H|(i & H)]; [|exists (S i); exact H]. destruct o as [y|]; [|destruct H]. destruct H as [[= -> ->]|[]]. exists 0%nat. auto.
  - intros ([|i] & A & B); [|right; exists i; auto]. cbn in A, B. injection A as ->. injection B as ->. left. left. reflexivity.
Qed.
Lemma slots_nodup names : forall os, NoDup names -> NoDup (map fst (slots names os)).
Proof.
  induction names as [|k names IH]; intros [|o os] N; cbn [slots map]; try constructor. inversion N as [|? ? X Y]; subst.
  destruct o as [v|]; cbn; [|auto]. constructor; [|auto]. intros I. apply X. apply in_map_iff in I. destruct I as ([r x] & <- & I).
  apply slots_in in I. destruct I as (i & I & _). eapply nth_error_In. exact I.
Qed.
Lemma structure_slots names least os : Forall plain names -> NoDup names -> structure names least (JObj (slots names os)).
Proof.
  intros P N. rewrite Forall_forall in P. assert (K : forall raw x, In (raw, x) (slots names os) -> plain raw).
  { intros raw x I. apply slots_in in I. destruct I as (i & I & _). apply P. eapply nth_error_In. exact I. }
  split.
  - apply Forall_forall. intros [raw x] I. exists raw. apply plain_text; [exact (K _ _ I)|reflexivity].
  - intros i j [r1 x] [r2 y] k A B T1 T2 _. apply plain_text in T1, T2; try (eapply K; eapply nth_error_In; eassumption). cbn [fst] in *. subst r1 r2.
    pose proof (slots_nodup names os N) as ND. rewrite NoDup_nth_error in ND. apply ND.
    + rewrite map_length. apply nth_error_Some. congruence.
    + rewrite !nth_error_map, A, B. reflexivity.
Qed.

Section Slots.
Variables (names : list bytes) (os : list (option json)) (k : string) (i : nat) (o : option json).
Hypotheses (PL : Forall plain names) (ND : NoDup names) (K : nth_error names i = Some (text k)) (O : nth_error os i = Some o).
Lemma holds_slot x : holds names (JObj (slots names os)) (text k) x <-> o = Some x.
Proof.
  cbn [holds]. split.
  - intros (raw & I & T). apply slots_in in I. destruct I as (j & A & B). rewrite Forall_forall in PL.
    apply plain_text in T; [|apply PL; eapply nth_error_In; exact A]. subst raw.
    rewrite NoDup_nth_error in ND. assert (i = j) as <- by (apply ND; [apply nth_error_Some; congruence|congruence]). congruence.
  - intros E. exists (text k). split; [apply slots_in; exists i; split; [exact K|congruence]|]. apply plain_text; [|reflexivity]. rewrite Forall_forall in PL. apply PL.
    eapply nth_error_In. exact K.
Qed.
Lemma has_slot {A} (P : json -> A -> Prop) y a : o = Some y -> has names (JObj (slots names os)) k P a <-> P y a.
Proof.
  intros E. unfold has. split; [intros (x & H & Px); apply holds_slot in H; congruence|]. intros H. exists y. split; [apply holds_slot; exact E|exact H].
Qed.
Lemma may_slot {A} (P : json -> A -> Prop) g nulls a :
  o = match a with Some b => Some (g b) | None => if nulls : bool then Some JNull else None end ->
  may names (JObj (slots names os)) k P a <-> forall b, a = Some b -> P (g b) b.
Proof.
  destruct a as [b|]; intros E; cbn [may].
  - rewrite (has_slot _ _ _ E). split; [intros H c [= <-]; exact H|auto].
  - split; [intros _ b [=]|]. intros _ x H. apply holds_slot in H. destruct nulls; congruence.
Qed.
Lemma or_slot {A} (P : json -> A -> Prop) y d a : o = Some y -> or_else names (JObj (slots names os)) k P d a <-> P y a.
Proof.
  intros E. unfold or_else. rewrite (has_slot _ _ _ E). split; [|auto]. intros [H|[H _]]; [exact H|]. destruct (H y). apply holds_slot. exact E.
Qed.
Lemma or_slot_none {A} (P : json -> A -> Prop) d : o = None -> or_else names (JObj (slots names os)) k P d d.
Proof. intros E. right. split; [|reflexivity]. intros x H. apply holds_slot in H. congruence. Qed.
End Slots.
Lemma is_list_map {A} (P : json -> A -> Prop) f l : is_list P (JArr (map f l)) l <-> Forall (fun x => P (f x) x) l.
Proof.
  unfold is_list. transitivity (Forall2 P (map f l) l).
  - split; [intros (vs & [= <-] & H); exact H|eauto].
  - induction l as [|x l IH]; cbn; [split; constructor|]. split; intros H; inversion H; subst; constructor; auto; apply IH; assumption.
Qed.
Lemma latest_nodup {A} (m : list (N * A)) : NoDup (map fst m) -> latest m = m.
Proof.
  induction m as [|e m IH]; cbn; [reflexivity|]. intros N. inversion N as [|? ? X Y]; subst. destruct (existsb _ m) eqn:E.
  - apply existsb_exists in E. destruct E as (f & I & E). apply N.eqb_eq in E. destruct X. rewrite <- E. apply in_map. exact I.
  - f_equal. auto.
Qed.
Lemma decimal_inj t n n' : counts t n -> counts t n' -> n = n'.
Proof. intros [_ ->] [_ ->]. reflexivity. Qed.
Lemma is_map_map {A} (P : json -> A -> Prop) f m : NoDup (map fst m) -> Forall (fun e => fst e <= u32_max /\ P (f (snd e)) (snd e)) m -> is_map P (j_map f m) m.
Proof.
  intros N F. exists (map (fun e => (show 10 (fst e), f (snd e))) m), m. split; [reflexivity|]. split; [symmetry; apply latest_nodup; exact N|].
  clear N. induction F as [|e m [L Pe] F IH]; cbn; constructor; [|exact IH]. cbn. split; [apply show_number|]. split; [apply show_counts|]. auto.
Qed.
Lemma nibble_ascii a x : nibble a x -> n_of a < 128.
Proof. intros [(k & _ & L & E)|(k & _ & L & [E|E])]; lia. Qed.
Lemma ascii_text b r : n_of b < 128 -> is_text r -> is_text (b :: r).
Proof. intros L [cs T]. exists (n_of b :: cs). change (b :: r) with ([b] ++ r). constructor; [|exact T]. constructor; [exact L|reflexivity]. Qed.
Lemma hexes_text t r : hexes t r -> is_text t.
Proof.
  induction 1 as [|a b x y t r A B H IH]; [exists []; constructor|]. apply nibble_ascii in A, B. apply ascii_text; [exact A|apply ascii_text; [exact B|exact IH]].
Qed.
Lemma string_slot s : is_text s -> is_string (j_string s) s.
Proof. intros T. exists (escape s). split; [reflexivity|apply escape_text; exact T]. Qed.
Lemma string_inj s t : is_text s -> is_string (j_string s) t -> t = s.
Proof.
  intros T (raw & [= <-] & H). apply escape_text in T. apply string_of_complete in H, T. congruence.
Qed.
Lemma uint_slot max n : n <= max -> is_uint max (j_uint n) n.
Proof. intros L. exists (show 10 n). split; [reflexivity|]. split; [apply show_counts|exact L]. Qed.
Lemma hex_slot d : is_hex (j_string (hex d)) d.
Proof. exists (hex d). pose proof (hexes_hex d) as H. split; [apply string_slot; eapply hexes_text; exact H|exact H]. Qed.
Lemma video_slot u v : video_value v -> is_text (show_video v) -> is_video u (j_string (show_video v)) v <-> video_good (uni_word u) v.
Proof.
  intros V T. rewrite <- (video_exact u v V). split; [intros (s & S & P); apply string_inj in S; [congruence|exact T]|].
  intros P. exists (show_video v). split; [apply string_slot; exact T|exact P].
Qed.
Lemma audio_slot v : is_text (show_audio v) -> is_audio (j_string (show_audio v)) v <-> audio_good v.
Proof.
  intros T. rewrite <- (audio_exact v). split; [intros (s & S & P); apply string_inj in S; [congruence|exact T]|].
  intros P. exists (show_audio v). split; [apply string_slot; exact T|exact P].
Qed.

(** *** What is printed is well spelled *)
Lemma wf_slots names os : Forall plain names -> (forall v, In (Some v) os -> wf v) -> wf (JObj (slots names os)).
Proof.
  intros P W. constructor. apply Forall_forall. intros [raw x] I. apply slots_in in I. destruct I as (i & A & B). cbn. split.
  - apply plain_spelling. rewrite Forall_forall in P. apply P. eapply nth_error_In. exact A.
  - apply W. eapply nth_error_In. exact B.
Qed.
Lemma wf_string s : wf (j_string s).
Proof. constructor. apply escape_inside. Qed.
Lemma wf_uint n : wf (j_uint n).
Proof. constructor. apply show_number. Qed.
Lemma digit_plain b : is_digit b = true -> 32 <= n_of b /\ b <> """"%byte /\ b <> "\"%byte.
Proof. intros H. apply is_digit_digit in H. destruct H as [_ H]. split; [lia|]. split; intros ->; vm_compute in H; destruct H as [A B]; congruence. Qed.
Lemma digits_spelling t : forallb is_digit t = true -> spelling t.
Proof. induction t as [|b t IH]; cbn; [constructor|]. intros H. apply andb_true_iff in H. destruct H as [H1 H2]. apply digit_plain in H1. constructor; try apply H1. auto. Qed.
Lemma wf_map {A} (f : A -> json) m : (forall a, wf (f a)) -> wf (j_map f m).
Proof.
  intros W. constructor. apply Forall_forall. intros e I. apply in_map_iff in I. destruct I as (x & <- & I). cbn. split; [|apply W].
  apply digits_spelling. apply show_digits.
Qed.
Lemma wf_list {A} (f : A -> json) l : (forall a, wf (f a)) -> wf (JArr (map f l)).
Proof. intros W. constructor. apply Forall_forall. intros x I. apply in_map_iff in I. destruct I as (y & <- & _). apply W. Qed.
Lemma wf_opt {A} (f : A -> json) o v : (forall a, wf (f a)) -> Some v = option_map f o -> wf v.
Proof. intros W E. destruct o; [|discriminate]. injection E as ->. apply W. Qed.

Lemma member_slot k v : member k v = slot (text k) (Some v). Proof. reflexivity. Qed.
Definition null_map {A} (nulls : bool) (f : A -> json) (o : option A) : option json :=
  match o with Some b => Some (f b) | None => if nulls then Some JNull else None end.
Lemma optional_slot {A} k (f : A -> json) o : optional k f o = slot (text k) (null_map false f o). Proof. destruct o; reflexivity. Qed.
Lemma perhaps_slot {A} n k (f : A -> json) o : perhaps n k f o = slot (text k) (null_map n f o). Proof. destruct o, n; reflexivity. Qed.
Definition filled {A} (l : list A) (v : json) : option json := match l with [] => None | _ => Some v end.
Lemma nonempty_slot {A} k (f : A -> json) l : nonempty k f l = slot (text k) (filled l (JArr (map f l))). Proof. destruct l; reflexivity. Qed.
Lemma map_slot {A} k (f : A -> json) m : match m with [] => [] | e :: r => member k (j_map f (e :: r)) end = slot (text k) (filled m (j_map f m)). Proof. destruct m; reflexivity. Qed.
Lemma wf_null_map {A} n (f : A -> json) o v : (forall a, wf (f a)) -> Some v = null_map n f o -> wf v.
Proof. intros W E. destruct o; [|destruct n; [|discriminate]]; injection E as ->; [apply W|constructor]. Qed.
Lemma wf_filled {A} (l : list A) x v : wf x -> Some v = filled l x -> wf v.
Proof. intros W E. destruct l; [discriminate|]. injection E as ->. exact W. Qed.
Lemma or_slot_list {A} (P : json -> A -> Prop) f l names os k i : Forall plain names -> NoDup names -> nth_error names i = Some (text k) ->
  nth_error os i = Some (filled l (JArr (map f l))) -> or_else names (JObj (slots names os)) k (is_list P) [] l <-> Forall (fun x => P (f x) x) l.
Proof.
  intros PL ND K O. destruct l as [|x l].
  - split; [constructor|]. intros _. eapply or_slot_none; eauto.
  - rewrite (or_slot _ _ _ _ _ PL ND K O (is_list P) _ [] _ eq_refl). apply (is_list_map P f (x :: l)).
Qed.
Lemma or_slot_map {A} (P : json -> A -> Prop) f m names os k i : Forall plain names -> NoDup names -> nth_error names i = Some (text k) ->
  nth_error os i = Some (filled m (j_map f m)) -> NoDup (map fst m) -> Forall (fun e => fst e <= u32_max /\ P (f (snd e)) (snd e)) m ->
  or_else names (JObj (slots names os)) k (is_map P) [] m.
Proof.
  intros PL ND K O N F. destruct m as [|x m].
  - eapply or_slot_none; eauto.
  - rewrite (or_slot _ _ _ _ _ PL ND K O (is_map P) _ [] _ eq_refl). apply is_map_map; assumption.
Qed.

Ltac plains := repeat (constructor; [split; [reflexivity|apply utf8_valid_iff; reflexivity]|]); constructor.
Ltac wf_each := intros ? I; cbn [In] in I; repeat (destruct I as [I|I]; [symmetry in I|]); [..|destruct I];
  first [ injection I as ->; auto using wf_string, wf_uint, wf_bool | eapply wf_null_map; [|exact I]; intros; cbv beta; auto using wf_string, wf_uint, wf_bool | eapply wf_filled; [|exact I]; auto ].

(** Track *)
Definition track_slots (t : track_info) := [Some (j_string (ti_name t)); Some (j_uint (ti_priority t))].
Lemma j_track_slots t : j_track t = JObj (slots track_names (track_slots t)). Proof. reflexivity. Qed.
Lemma track_plain : Forall plain track_names. Proof. plains. Qed.
Lemma track_nodup : NoDup track_names. Proof. nodup. Qed.
Lemma wf_track t : wf (j_track t).
Proof. rewrite j_track_slots. apply wf_slots; [exact track_plain|]. wf_each. Qed.
Lemma track_slot t : track_value t -> is_track (j_track t) t.
Proof.
  intros [T L]. rewrite j_track_slots. split; [apply structure_slots; [exact track_plain|exact track_nodup]|]. split.
  - eapply (has_slot _ _ _ 0 _ track_plain track_nodup); [reflexivity..|]. apply string_slot. exact T.
  - eapply (has_slot _ _ _ 1 _ track_plain track_nodup); [reflexivity..|]. apply uint_slot. exact L.
Qed.

(** Each field of what is printed, by its number. *)
Ltac at_slot i PL ND := match goal with
  | |- context [has ?n (JObj (slots ?n ?os)) ?k ?P ?a] => rewrite (has_slot n os k i _ PL ND eq_refl eq_refl P _ a eq_refl)
  | |- context [may ?n (JObj (slots ?n ?os)) ?k ?P ?a] => rewrite (may_slot n os k i _ PL ND eq_refl eq_refl P _ false a eq_refl)
  | |- context [or_else ?n (JObj (slots ?n ?os)) ?k ?P ?d ?a] => rewrite (or_slot n os k i _ PL ND eq_refl eq_refl P _ d a eq_refl)
  end.

(** Audio *)
Definition audio_config_slots (c : audio_config) :=
  [Some (j_string (show_audio (ac_codec c))); Some (j_uint (ac_rate c)); Some (j_uint (ac_channels c));
   null_map false j_uint (ac_bitrate c); null_map false (fun d => j_string (hex d)) (ac_description c)].
Lemma j_audio_config_slots c : j_audio_config c = JObj (slots audio_config_names (audio_config_slots c)).
Proof. unfold j_audio_config. rewrite !optional_slot, !member_slot. cbn [slots audio_config_names audio_config_slots map]. rewrite app_nil_r. reflexivity. Qed.
Lemma audio_config_plain : Forall plain audio_config_names. Proof. plains. Qed.
Lemma audio_config_nodup : NoDup audio_config_names. Proof. nodup. Qed.
Lemma wf_audio_config c : wf (j_audio_config c).
Proof. rewrite j_audio_config_slots. apply wf_slots; [exact audio_config_plain|]. wf_each. Qed.
Lemma audio_config_slot c : audio_config_value c -> is_audio_config (j_audio_config c) c <-> audio_good (ac_codec c).
Proof.
  intros (T & L1 & L2 & L3). rewrite j_audio_config_slots. unfold is_audio_config. cbv zeta.
  assert (S : structure audio_config_names 3 (JObj (slots audio_config_names (audio_config_slots c)))) by (apply structure_slots; [exact audio_config_plain|exact audio_config_nodup]).
  at_slot 0%nat audio_config_plain audio_config_nodup. rewrite (audio_slot _ T).
  at_slot 1%nat audio_config_plain audio_config_nodup. at_slot 2%nat audio_config_plain audio_config_nodup.
  at_slot 3%nat audio_config_plain audio_config_nodup. at_slot 4%nat audio_config_plain audio_config_nodup.
  unfold within in *. split; [tauto|]. intros G. split; [exact S|]. repeat match goal with |- _ /\ _ => split end; intros; cbv beta; auto using uint_slot, hex_slot.
Qed.
Definition info_slots (t : track_info) (c : json) := [Some (j_track t); Some c].
Lemma info_plain : Forall plain info_names. Proof. plains. Qed.
Lemma info_nodup : NoDup info_names. Proof. nodup. Qed.
Lemma j_audio_slots i : j_audio i = JObj (slots info_names (info_slots (ai_track i) (j_audio_config (ai_config i)))). Proof. reflexivity. Qed.
Lemma wf_audio i : wf (j_audio i).
Proof. rewrite j_audio_slots. apply wf_slots; [exact info_plain|]. pose proof wf_track. pose proof wf_audio_config. wf_each. Qed.
Lemma audio_info_slot i : track_value (ai_track i) -> audio_config_value (ai_config i) -> is_audio_info (j_audio i) i <-> audio_good (ac_codec (ai_config i)).
Proof.
  intros T V. rewrite j_audio_slots. unfold is_audio_info.
  assert (S : structure info_names 2 (JObj (slots info_names (info_slots (ai_track i) (j_audio_config (ai_config i)))))) by (apply structure_slots; [exact info_plain|exact info_nodup]).
  at_slot 0%nat info_plain info_nodup. at_slot 1%nat info_plain info_nodup. rewrite (audio_config_slot _ V). pose proof (track_slot _ T). tauto.
Qed.

Section Floats.
Context {F64 F32 : Type} (f64_text : F64 -> option bytes) (f64_of : bytes -> option F64)
  (f32_text : F32 -> option bytes) (f32_of : bytes -> option F32) (f32_0 f32_1 : F32) (u : unicode).
Hypothesis N64 : forall x t, f64_text x = Some t -> json_number t.
Hypothesis N32 : forall x t, f32_text x = Some t -> json_number t.
Lemma f64_slot x : is_f64 f64_of (j_f64 f64_text x) x <-> f64_good f64_text f64_of x.
Proof.
  unfold is_f64, j_f64, f64_good. destruct (f64_text x) as [t|].
  - split; [intros (t' & [= <-] & H)|intros (t' & [= <-] & H)]; exists t; auto.
  - split; [intros (t' & H & _)|intros (t' & H & _)]; discriminate.
Qed.
Lemma f32_slot x : is_f32 f32_of (j_f32 f32_text x) x <-> f32_good f32_text f32_of x.
Proof.
  unfold is_f32, j_f32, f32_good. destruct (f32_text x) as [t|].
  - split; [intros (t' & [= <-] & H)|intros (t' & [= <-] & H)]; exists t; auto.
  - split; [intros (t' & H & _)|intros (t' & H & _)]; discriminate.
Qed.
Lemma wf_f64 x : wf (j_f64 f64_text x).
Proof. unfold j_f64. destruct (f64_text x) eqn:E; constructor. eapply N64. exact E. Qed.
Lemma wf_f32 x : wf (j_f32 f32_text x).
Proof. unfold j_f32. destruct (f32_text x) eqn:E; constructor. eapply N32. exact E. Qed.

(** Video *)
Definition video_config_slots (c : @video_config F64) :=
  [Some (j_string (show_video (vc_codec c))); null_map false (fun d => j_string (hex d)) (vc_description c);
   null_map false j_uint (vc_width c); null_map false j_uint (vc_height c); null_map false j_uint (vc_ratio_width c);
   null_map false j_uint (vc_ratio_height c); null_map false j_uint (vc_bitrate c); null_map false (j_f64 f64_text) (vc_framerate c);
   null_map false JBool (vc_latency c); null_map false (j_f64 f64_text) (vc_rotation c); null_map false JBool (vc_flip c)].
Lemma j_video_config_slots c : j_video_config f64_text c = JObj (slots video_config_names (video_config_slots c)).
Proof. unfold j_video_config. rewrite !optional_slot, !member_slot. cbn [slots video_config_names video_config_slots map]. rewrite app_nil_r. reflexivity. Qed.
Lemma video_config_plain : Forall plain video_config_names. Proof. plains. Qed.
Lemma video_config_nodup : NoDup video_config_names. Proof. nodup. Qed.
Lemma wf_video_config c : wf (j_video_config f64_text c).
Proof. rewrite j_video_config_slots. apply wf_slots; [exact video_config_plain|]. pose proof wf_f64. wf_each. Qed.
Lemma video_config_slot c : video_config_value c -> is_video_config f64_of u (j_video_config f64_text c) c <->
  video_good (uni_word u) (vc_codec c) /\ (forall x, vc_framerate c = Some x \/ vc_rotation c = Some x -> f64_good f64_text f64_of x).
Proof.
  intros (V & T & L1 & L2 & L3 & L4 & L5). rewrite j_video_config_slots. unfold is_video_config. cbv zeta.
  assert (S : structure video_config_names 6 (JObj (slots video_config_names (video_config_slots c)))) by (apply structure_slots; [exact video_config_plain|exact video_config_nodup]).
  at_slot 0%nat video_config_plain video_config_nodup. rewrite (video_slot _ _ V T).
  at_slot 1%nat video_config_plain video_config_nodup. at_slot 2%nat video_config_plain video_config_nodup.
  at_slot 3%nat video_config_plain video_config_nodup. at_slot 4%nat video_config_plain video_config_nodup.
  at_slot 5%nat video_config_plain video_config_nodup. at_slot 6%nat video_config_plain video_config_nodup.
  at_slot 7%nat video_config_plain video_config_nodup. at_slot 8%nat video_config_plain video_config_nodup.
  at_slot 9%nat video_config_plain video_config_nodup. at_slot 10%nat video_config_plain video_config_nodup.
  split.
  - intros (_ & G & _ & _ & _ & _ & _ & _ & G1 & _ & G2 & _). split; [exact G|]. intros x [E|E]; apply f64_slot; auto.
  - intros (G & GF). split; [exact S|]. unfold within in *. repeat match goal with |- _ /\ _ => split end; intros; cbv beta; auto using uint_slot, hex_slot; try reflexivity; apply f64_slot; auto.
Qed.
Lemma j_video_slots i : j_video f64_text i = JObj (slots info_names (info_slots (vi_track i) (j_video_config f64_text (vi_config i)))). Proof. reflexivity. Qed.
Lemma wf_video i : wf (j_video f64_text i).
Proof. rewrite j_video_slots. apply wf_slots; [exact info_plain|]. pose proof wf_track. pose proof wf_video_config. wf_each. Qed.
Lemma video_info_slot i : track_value (vi_track i) -> video_config_value (vi_config i) -> is_video_info f64_of u (j_video f64_text i) i <->
  video_good (uni_word u) (vc_codec (vi_config i)) /\
  (forall x, vc_framerate (vi_config i) = Some x \/ vc_rotation (vi_config i) = Some x -> f64_good f64_text f64_of x).
Proof.
  intros T V. rewrite j_video_slots. unfold is_video_info.
  assert (S : structure info_names 2 (JObj (slots info_names (info_slots (vi_track i) (j_video_config f64_text (vi_config i)))))) by (apply structure_slots; [exact info_plain|exact info_nodup]).
  at_slot 0%nat info_plain info_nodup. at_slot 1%nat info_plain info_nodup. rewrite (video_config_slot _ V). pose proof (track_slot _ T). tauto.
Qed.

(** Location *)
Definition position_slots (p : position) := [Some (j_f32 f32_text (po_x p)); Some (j_f32 f32_text (po_y p)); Some (j_f32 f32_text (po_zoom p))].
Lemma j_position_slots p : j_position f32_text p = JObj (slots position_names (position_slots p)). Proof. reflexivity. Qed.
Lemma position_plain : Forall plain position_names. Proof. plains. Qed.
Lemma position_nodup : NoDup position_names. Proof. nodup. Qed.
Lemma wf_position p : wf (j_position f32_text p).
Proof. rewrite j_position_slots. apply wf_slots; [exact position_plain|]. pose proof wf_f32. wf_each. Qed.
Definition position_good (p : position) : Prop :=
  f32_good f32_text f32_of (po_x p) /\ f32_good f32_text f32_of (po_y p) /\ f32_good f32_text f32_of (po_zoom p).
Lemma position_slot p : is_position f32_of f32_0 f32_1 (j_position f32_text p) p <-> position_good p.
Proof.
  rewrite j_position_slots. unfold is_position, position_good. cbv zeta.
  assert (S : structure position_names 0 (JObj (slots position_names (position_slots p)))) by (apply structure_slots; [exact position_plain|exact position_nodup]).
  at_slot 0%nat position_plain position_nodup. at_slot 1%nat position_plain position_nodup. at_slot 2%nat position_plain position_nodup.
  rewrite !f32_slot. tauto.
Qed.
Definition location_slots (nulls : bool) (o : location) :=
  [null_map nulls (j_position f32_text) (lo_initial o); null_map nulls j_track (lo_updates o);
   filled (lo_peers o) (j_map j_track (lo_peers o)); null_map nulls j_uint (lo_handle o)].
Lemma j_location_slots n o : j_location f32_text n o = JObj (slots location_names (location_slots n o)).
Proof.
  unfold j_location. rewrite (map_slot "peers" j_track (lo_peers o)), !perhaps_slot. cbn [slots location_names location_slots map]. rewrite app_nil_r. reflexivity.
Qed.
Lemma location_plain : Forall plain location_names. Proof. plains. Qed.
Lemma location_nodup : NoDup location_names. Proof. nodup. Qed.
Lemma wf_location n o : wf (j_location f32_text n o).
Proof. rewrite j_location_slots. apply wf_slots; [exact location_plain|]. pose proof wf_position. pose proof wf_track. pose proof (@wf_map _ j_track). wf_each. Qed.
Lemma location_slot n o : location_value o -> is_location f32_of f32_0 f32_1 (j_location f32_text n o) o <->
  forall p, lo_initial o = Some p -> position_good p.
Proof.
  intros (T & (N & M) & L). rewrite j_location_slots. unfold is_location. cbv zeta.
  assert (S : structure location_names 0 (JObj (slots location_names (location_slots n o)))) by (apply structure_slots; [exact location_plain|exact location_nodup]).
  rewrite (may_slot location_names (location_slots n o) "initial" 0 _ location_plain location_nodup eq_refl eq_refl _ _ n (lo_initial o) eq_refl).
  rewrite (may_slot location_names (location_slots n o) "updates" 1 _ location_plain location_nodup eq_refl eq_refl _ _ n (lo_updates o) eq_refl).
  rewrite (may_slot location_names (location_slots n o) "handle" 3 _ location_plain location_nodup eq_refl eq_refl _ _ n (lo_handle o) eq_refl).
  assert (P : or_else location_names (JObj (slots location_names (location_slots n o))) "peers" (is_map is_track) [] (lo_peers o)).
  { apply (or_slot_map _ j_track (lo_peers o) location_names (location_slots n o) "peers" 2 location_plain location_nodup eq_refl eq_refl N).
    eapply Forall_impl; [|exact M]. intros e [A B]. split; [exact A|apply track_slot; exact B]. }
  split.
  - intros (_ & G & _) p E. apply position_slot. auto.
  - intros G. split; [exact S|]. split; [intros p E; apply position_slot; auto|]. split; [intros t E; apply track_slot; auto|]. split; [exact P|]. intros h E. apply uint_slot. auto.
Qed.

(** Catalog *)
Definition catalog_slots (nulls : bool) (c : @catalog_info F64 F32) :=
  [filled (ct_video c) (JArr (map (j_video f64_text) (ct_video c))); filled (ct_audio c) (JArr (map j_audio (ct_audio c)));
   null_map false (j_location f32_text nulls) (ct_location c)].
Lemma j_catalog_slots n c : j_catalog f64_text f32_text n c = JObj (slots catalog_names (catalog_slots n c)).
Proof. unfold j_catalog. rewrite !nonempty_slot, !optional_slot. cbn [slots catalog_names catalog_slots map]. rewrite app_nil_r. reflexivity. Qed.
Lemma catalog_plain : Forall plain catalog_names. Proof. plains. Qed.
Lemma catalog_nodup : NoDup catalog_names. Proof. nodup. Qed.
Lemma wf_catalog n c : wf (j_catalog f64_text f32_text n c).
Proof.
  rewrite j_catalog_slots. apply wf_slots; [exact catalog_plain|]. pose proof (wf_location n). pose proof (wf_list (j_video f64_text) (ct_video c) wf_video).
  pose proof (wf_list j_audio (ct_audio c) wf_audio). wf_each.
Qed.
Lemma Forall_iff {A} (P Q R : A -> Prop) l : Forall R l -> (forall x, R x -> P x <-> Q x) -> Forall P l <-> Forall Q l.
Proof. intros F H. rewrite !Forall_forall. rewrite Forall_forall in F. split; intros G x I; apply (H x (F x I)); auto. Qed.
Lemma catalog_slot n c : catalog_value c -> is_catalog f64_of f32_of f32_0 f32_1 u (j_catalog f64_text f32_text n c) c <->
  catalog_good f64_text f64_of f32_text f32_of u c.
Proof.
  intros (V & A & L). rewrite j_catalog_slots. unfold is_catalog, catalog_good. cbv zeta.
  assert (S : structure catalog_names 0 (JObj (slots catalog_names (catalog_slots n c)))) by (apply structure_slots; [exact catalog_plain|exact catalog_nodup]).
  rewrite (or_slot_list _ (j_video f64_text) (ct_video c) catalog_names (catalog_slots n c) "video" 0 catalog_plain catalog_nodup eq_refl eq_refl).
  rewrite (or_slot_list _ j_audio (ct_audio c) catalog_names (catalog_slots n c) "audio" 1 catalog_plain catalog_nodup eq_refl eq_refl).
  at_slot 2%nat catalog_plain catalog_nodup.
  rewrite (Forall_iff _ _ _ _ V (fun i H => video_info_slot i (proj1 H) (proj2 H))).
  rewrite (Forall_iff _ _ _ _ A (fun i H => audio_info_slot i (proj1 H) (proj2 H))).
  split.
  - intros (_ & G1 & G2 & G3). split; [exact G1|]. split; [exact G2|]. intros o p Eo Ep. apply (proj1 (location_slot n o (L o Eo)) (G3 o Eo) p Ep).
  - intros (G1 & G2 & G3). split; [exact S|]. split; [exact G1|]. split; [exact G2|]. intros o Eo. apply (location_slot n o (L o Eo)). intros p Ep. apply (G3 o p Eo Ep).
Qed.
Theorem catalog_roundtrip n c : catalog_value c ->
  parse_catalog f64_of f32_of f32_0 f32_1 u (print_catalog f64_text f32_text n c) = Got c <-> catalog_good f64_text f64_of f32_text f32_of u c.
Proof.
  intros V. rewrite <- (catalog_slot n c V). unfold parse_catalog, print_catalog. pose proof (wf_catalog n c) as W.
  pose proof (proj2 (read_json_exact _ _) (document_print _ W)) as E. rewrite E. apply reads_catalog. exact W.
Qed.
Theorem catalog_printed n c : document (j_catalog f64_text f32_text n c) (print_catalog f64_text f32_text n c).
Proof. apply document_print, wf_catalog. Qed.
End Floats.

(** Feedback *)
Lemma wf_codecs {C} (f : C -> json) c : (forall x, wf (f x)) -> wf (j_codecs f c).
Proof.
  intros W. change (j_codecs f c) with (JObj (slots codecs_names [Some (JArr (map f (cd_hardware c))); Some (JArr (map f (cd_software c))); Some (JArr (map f (cd_unsupported c)))])).
  apply wf_slots; [plains|]. pose proof (fun l => wf_list f l W). wf_each.
Qed.
Lemma codecs_slot {C} (P : json -> C -> Prop) f c : is_codecs P (j_codecs f c) c <-> Forall (fun x => P (f x) x) (all_codecs c).
Proof.
  change (j_codecs f c) with (JObj (slots codecs_names [Some (JArr (map f (cd_hardware c))); Some (JArr (map f (cd_software c))); Some (JArr (map f (cd_unsupported c)))])).
  assert (PL : Forall plain codecs_names) by plains. assert (ND : NoDup codecs_names) by nodup. unfold is_codecs. cbv zeta.
  pose proof (structure_slots codecs_names 0 [Some (JArr (map f (cd_hardware c))); Some (JArr (map f (cd_software c))); Some (JArr (map f (cd_unsupported c)))] PL ND) as S.
  at_slot 0%nat PL ND. at_slot 1%nat PL ND. at_slot 2%nat PL ND. rewrite !is_list_map. unfold all_codecs. rewrite !Forall_app. tauto.
Qed.
Definition capabilities_slots (c : capabilities) :=
  [Some (j_codecs (fun x => j_string (show_video x)) (cp_video c)); Some (j_codecs (fun x => j_string (show_audio x)) (cp_audio c))].
Lemma j_capabilities_slots c : j_capabilities c = JObj (slots capabilities_names (capabilities_slots c)). Proof. reflexivity. Qed.
Lemma wf_capabilities c : wf (j_capabilities c).
Proof.
  rewrite j_capabilities_slots. apply wf_slots; [plains|]. pose proof (wf_codecs (fun x => j_string (show_video x)) (cp_video c) (fun x => wf_string _)).
  pose proof (wf_codecs (fun x => j_string (show_audio x)) (cp_audio c) (fun x => wf_string _)). wf_each.
Qed.
Definition feedback_slots (f : feedback) := [null_map false j_capabilities (fb_capabilities f); filled (fb_locations f) (j_map j_track (fb_locations f))].
Lemma j_feedback_slots f : j_feedback f = JObj (slots feedback_names (feedback_slots f)).
Proof. unfold j_feedback. rewrite (map_slot "locations" j_track (fb_locations f)), !optional_slot. cbn [slots feedback_names feedback_slots map]. rewrite app_nil_r. reflexivity. Qed.
Lemma wf_feedback f : wf (j_feedback f).
Proof. rewrite j_feedback_slots. apply wf_slots; [plains|]. pose proof wf_capabilities. pose proof (wf_map j_track (fb_locations f) wf_track). wf_each. Qed.
Lemma feedback_slot u f : feedback_value f -> is_feedback u (j_feedback f) f <-> feedback_good u f.
Proof.
  intros (V & N & M). rewrite j_feedback_slots. unfold is_feedback, feedback_good. cbv zeta.
  assert (PL : Forall plain feedback_names) by plains. assert (ND : NoDup feedback_names) by nodup.
  pose proof (structure_slots feedback_names 0 (feedback_slots f) PL ND) as S. at_slot 0%nat PL ND.
  assert (P : or_else feedback_names (JObj (slots feedback_names (feedback_slots f))) "locations" (is_map is_track) [] (fb_locations f)).
  { apply (or_slot_map _ j_track (fb_locations f) feedback_names (feedback_slots f) "locations" 1 PL ND eq_refl eq_refl N). eapply Forall_impl; [|exact M]. intros e [A B]. split; [exact A|apply track_slot; exact B]. }
  assert (Q : forall c, fb_capabilities f = Some c -> is_capabilities u (j_capabilities c) c <->
    Forall (video_good (uni_word u)) (all_codecs (cp_video c)) /\ Forall audio_good (all_codecs (cp_audio c))).
  { intros c E. destruct (V c E) as [V1 V2]. rewrite j_capabilities_slots. unfold is_capabilities. cbv zeta.
    assert (PL' : Forall plain capabilities_names) by plains. assert (ND' : NoDup capabilities_names) by nodup.
    pose proof (structure_slots capabilities_names 0 (capabilities_slots c) PL' ND') as S'. at_slot 0%nat PL' ND'. at_slot 1%nat PL' ND'.
    rewrite !codecs_slot. rewrite (Forall_iff _ _ _ _ V1 (fun x H => video_slot u x (proj1 H) (proj2 H))). rewrite (Forall_iff _ _ _ _ V2 (fun x H => audio_slot x H)). tauto. }
  split.
  - intros (_ & G & _) c E. apply Q; auto.
  - intros G. split; [exact S|]. split; [|exact P]. intros c E. apply Q; auto.
Qed.
Theorem feedback_roundtrip u f : feedback_value f -> parse_feedback u (print_feedback f) = Got f <-> feedback_good u f.
Proof.
  intros V. rewrite <- (feedback_slot u f V). unfold parse_feedback, print_feedback. pose proof (wf_feedback f) as W.
  pose proof (proj2 (read_json_exact _ _) (document_print _ W)) as E. rewrite E. apply reads_feedback. exact W.
Qed.
