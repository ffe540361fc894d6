(** The catalogs of the Rust library before the JavaScript library. *)
From Coq Require Import NArith.
From Coq Require Import Strings.String.
From Coq Require Import List Bool Lia.
From Coq Require Import Init.Byte Strings.Byte.
From Verif.Model Require Import Base Map Text Codec Json Native Catalog CatalogJson JsCatalog.
From Verif.Spec Require Import CodingSpec CodecSpec NativeSpec JsonSpec CatalogJsonSpec JsCatalogSpec.
From Verif.Proofs Require Import BaseP MapP JsonP CatalogJsonP CatalogPrintP.
Import ListNotations.
Open Scope N_scope.

(** ** Whole numbers *)
Lemma zeros_spec r : zeros r = true <-> r = [] \/ exists k, r = x2e :: repeat x30 (S k).
Proof.
  destruct r as [|b r]; cbn [zeros]; [split; auto|].
  rewrite !andb_true_iff, negb_true_iff, forallb_forall. split.
  - intros ((B & N) & Z). right. apply Byte.byte_dec_bl in B. subst b.
    assert (E : r = repeat x30 (List.length r)).
    { clear N. induction r as [|c r IH]; [reflexivity|]. cbn. rewrite <- IH by (intros x I; apply Z; right; exact I).
      specialize (Z c (or_introl eq_refl)). apply Byte.byte_dec_bl in Z. rewrite <- Z. reflexivity. }
    destruct r as [|c r]; [cbn in N; discriminate N|]. exists (List.length r). unfold dot. cbn in E |- *. rewrite <- E. reflexivity.
  - intros [C|[k C]]; [discriminate|]. injection C as -> ->. split; [split; reflexivity|].
    intros x [<-|I]; [reflexivity|]. apply repeat_spec in I. subst x. reflexivity.
Qed.
Lemma uint32_spec t : z_uint32 (JNum t) = true <-> exists n, whole t n /\ n <= u32_max.
Proof.
  cbn [z_uint32]. split.
  - pose proof (span_split is_digit t) as S0. destruct (span is_digit t) as [d r]. cbn in S0. destruct S0 as (-> & D & _).
    intros H. apply andb_true_iff in H as [Z U]. destruct (uint_of u32_max d) as [n|] eqn:E; [|discriminate].
    apply uint_of_exact in E as [C L]. exists n. split; [|exact L]. apply zeros_spec in Z as [->|[k ->]].
    + exists d, 0%nat. split; [exact C|]. left. apply app_nil_r.
    + exists d, k. split; [exact C|]. right. reflexivity.
  - intros (n & (d & k & C & T) & L). pose proof C as [Nu _]. apply numerals_spec in Nu as [_ D].
    assert (U : uint_of u32_max d = Some n) by (apply uint_of_exact; auto).
    destruct T as [->| ->].
    + pose proof (span_app is_digit d [] D I) as E. rewrite app_nil_r in E. rewrite E, U. reflexivity.
    + rewrite (span_app is_digit d (x2e :: repeat x30 (S k)) D eq_refl), U, andb_true_r. apply zeros_spec. right. exists k. reflexivity.
Qed.
Lemma decimals d n : counts d n -> forall m, counts d m -> m = n.
Proof. intros [_ ->] m [_ ->]. reflexivity. Qed.
Lemma dot_not_digit d k x : forallb is_digit x = true -> x <> d ++ x2e :: repeat x30 k.
Proof. intros D ->. rewrite forallb_app in D. apply andb_true_iff in D as [_ D]. discriminate D. Qed.
Lemma uint_spec n : z_uint32 (j_uint n) = true <-> n <= u32_max.
Proof.
  unfold j_uint. rewrite uint32_spec. split.
  - intros (m & (d & k & C & [E|E]) & L).
    + subst d. rewrite <- (decimals _ _ C _ (show_counts n)) in L. exact L.
    + exfalso. destruct (show_digits n) as (D & _). exact (dot_not_digit _ _ _ D E).
  - intros L. exists n. split; [|exact L]. exists (show 10 n), 0%nat. split; [apply show_counts|]. left. reflexivity.
Qed.

(** ** Members *)
Lemma get_app k b : forall a, z_get k (a ++ b) = match z_get k b with Some w => Some w | None => z_get k a end.
Proof.
  induction a as [|[n v] a IH]; cbn; [destruct (z_get k b); reflexivity|]. rewrite IH. destruct (z_get k b); reflexivity.
Qed.
Lemma get_member k n v : z_get k (member n v) = if str_eqb k (text n) then Some v else None.
Proof. reflexivity. Qed.
Lemma get_optional {A} k n (f : A -> json) o : z_get k (optional n f o) = if str_eqb k (text n) then option_map f o else None.
Proof. destruct o; cbn; [reflexivity|]. destruct (str_eqb _ _); reflexivity. Qed.
Lemma get_nonempty {A} k n (f : A -> json) l :
  z_get k (nonempty n f l) = if str_eqb k (text n) then match l with [] => None | _ => Some (JArr (map f l)) end else None.
Proof. destruct l; cbn; [|reflexivity]. destruct (str_eqb _ _); reflexivity. Qed.
Lemma get_perhaps {A} k nulls n (f : A -> json) o :
  z_get k (perhaps nulls n f o) = if str_eqb k (text n) then match o with Some a => Some (f a) | None => if nulls then Some JNull else None end else None.
Proof. destruct o; cbn; [reflexivity|]. destruct nulls; cbn; [reflexivity|]. destruct (str_eqb _ _); reflexivity. Qed.
Lemma get_peers k n (l : list (N * track_info)) :
  z_get k (match l with [] => [] | e :: r => member n (j_map j_track (e :: r)) end) =
  if str_eqb k (text n) then match l with [] => None | e :: r => Some (j_map j_track (e :: r)) end else None.
Proof. destruct l; [|reflexivity]. cbn [z_get]. destruct (str_eqb _ _); reflexivity. Qed.
Lemma opt_all {A} (f : A -> json) p o :
  match option_map f o with Some v => p v | None => true end = true <-> forall a, o = Some a -> p (f a) = true.
Proof. destruct o as [a|]; cbn; split; [intros H b [= <-]; exact H|auto|discriminate|reflexivity]. Qed.
Lemma all_map {A} (f : A -> json) p l : forallb p (map f l) = true <-> Forall (fun a => p (f a) = true) l.
Proof. rewrite forallb_forall, Forall_forall. split; intros H x I; [apply H, in_map, I|]. apply in_map_iff in I as (a & <- & J). auto. Qed.

Ltac names := repeat match goal with |- context [str_eqb (text ?a) (text ?b)] =>
  let e := eval vm_compute in (str_eqb (text a) (text b)) in change (str_eqb (text a) (text b)) with e; cbv iota end.
Lemma get_same {A} (o : option A) : match o with Some w => Some w | None => None end = o.
Proof. destruct o; reflexivity. Qed.
Ltac get1 := match goal with |- context [z_get (text ?k) ?es] => let X := fresh "X" in
  eassert (X : z_get (text k) es = _) by (rewrite ?get_app, ?get_optional, ?get_member, ?get_nonempty, ?get_perhaps, ?get_peers; names; rewrite ?get_same; reflexivity);
  rewrite X; clear X end.
Ltac gets := unfold z_need, z_optional; repeat get1; cbv iota.

Lemma track_ok t : track_value t -> z_track (j_track t) = true.
Proof.
  intros [_ P]. unfold z_track, j_track, z_object. gets. cbn [z_string j_string andb]. apply uint_spec.
  unfold u8_max, u32_max in *. lia.
Qed.

Section Floats.
Context {F64 F32 : Type} (f64_text : F64 -> option bytes) (f32_text : F32 -> option bytes).
Lemma number_spec x : z_number (j_f64 f64_text x) = true <-> f64_text x <> None.
Proof. unfold j_f64. destruct (f64_text x); cbn; split; congruence. Qed.
Lemma number32_spec x : z_number (j_f32 f32_text x) = true <-> f32_text x <> None.
Proof. unfold j_f32. destruct (f32_text x); cbn; split; congruence. Qed.
Lemma rate_spec x : z_uint32 (j_f64 f64_text x) = true <-> exists t n, f64_text x = Some t /\ whole t n /\ n <= u32_max.
Proof.
  unfold j_f64. destruct (f64_text x) as [t|].
  - rewrite uint32_spec. split; [intros (n & H); exists t, n; auto|]. intros (t' & n & [= <-] & H). exists n. exact H.
  - cbn. split; [discriminate|]. intros (t & n & H & _). discriminate.
Qed.
Lemma all_within max o : (forall n : N, o = Some n -> z_uint32 (j_uint n) = true) -> max = u32_max -> within max o.
Proof. intros H -> n E. apply uint_spec. auto. Qed.
Lemma within_all o : within u32_max o -> forall n, o = Some n -> z_uint32 (j_uint n) = true.
Proof. intros H n E. apply uint_spec. auto. Qed.

Lemma video_config_exact c : video_config_value c -> (z_video_config (j_video_config f64_text c) = true <-> video_for_web f64_text c).
Proof.
  intros (_ & _ & W & H & RW & RH & _). unfold z_video_config, j_video_config, z_object. gets. cbn [z_string j_string andb].
  rewrite !andb_true_iff, !opt_all. unfold video_for_web. split.
  - intros (((((((((_ & _) & _) & _) & _) & F) & B) & _) & R) & _). split; [|split].
    + apply all_within; auto.
    + intros x E. apply rate_spec. auto.
    + intros x E. apply number_spec. auto.
  - intros (B & F & R). repeat match goal with |- _ /\ _ => split end; try (apply within_all; assumption); try (intros; reflexivity).
    + intros x E. apply rate_spec. auto.
    + intros x E. apply number_spec. auto.
Qed.
Lemma video_exact i : track_value (vi_track i) -> video_config_value (vi_config i) ->
  (z_video (j_video f64_text i) = true <-> video_for_web f64_text (vi_config i)).
Proof.
  intros T V. unfold z_video, j_video, z_object. gets. rewrite (track_ok _ T). cbn [andb]. apply video_config_exact. exact V.
Qed.
Lemma audio_exact i : track_value (ai_track i) -> audio_config_value (ai_config i) ->
  (z_audio (j_audio i) = true <-> within u32_max (ac_bitrate (ai_config i))).
Proof.
  intros T (_ & R & C & _). unfold z_audio, j_audio, z_object. gets. rewrite (track_ok _ T). cbn [andb].
  unfold z_audio_config, j_audio_config, z_object. gets. cbn [z_string j_string andb].
  rewrite !andb_true_iff, !opt_all, !uint_spec. split.
  - intros ((_ & _) & B). apply all_within; auto.
  - intros B. repeat split; auto. apply within_all. exact B.
Qed.
Lemma position_exact p : z_position (j_position f32_text p) = true <-> f32_text (po_x p) <> None /\ f32_text (po_y p) <> None.
Proof. unfold z_position, j_position, z_object. gets. rewrite !andb_true_r, andb_true_iff, !number32_spec. reflexivity. Qed.
Lemma peers_ok m : Forall (fun e : N * track_info => fst e <= u32_max /\ track_value (snd e)) m -> z_record z_track (j_map j_track m) = true.
Proof.
  unfold z_record, j_map. intros H. induction H as [|e m [_ T] _ IH]; [reflexivity|]. cbn [map forallb fst snd]. rewrite (track_ok _ T). exact IH.
Qed.
Lemma location_exact nulls o : location_value o -> (z_location (j_location f32_text nulls o) = true <-> location_for_web f32_text nulls o).
Proof.
  intros (U & (_ & P) & _). unfold z_location, j_location, z_object. gets. cbn [andb].
  assert (Q : match match lo_peers o with [] => None | e :: r => Some (j_map j_track (e :: r)) end with Some v => z_record z_track v | None => true end = true)
    by (destruct (lo_peers o) eqn:E; [reflexivity|rewrite <- E in *; apply peers_ok, P]).
  rewrite Q, !andb_true_r. unfold location_for_web.
  destruct (lo_initial o) as [p|]; destruct (lo_updates o) as [t|]; rewrite ?(track_ok t (U _ eq_refl)); destruct nulls; cbn [z_position z_object z_track andb];
    rewrite ?andb_true_r, ?andb_false_r, ?position_exact; (split; [intros H; try discriminate H|intros [H1 H2]]); repeat split; intros; try congruence;
    try (match goal with E : Some _ = Some _ |- _ => injection E as <- end); try tauto; try (apply H1; reflexivity); try (destruct (H2 eq_refl); congruence).
Qed.
Theorem catalog_for_web nulls c : catalog_value c -> (z_root (j_catalog f64_text f32_text nulls c) = true <-> for_web f64_text f32_text nulls c).
Proof.
  intros (V & A & L). unfold z_root, j_catalog, z_object. gets.
  assert (QV : match match ct_video c with [] => None | _ => Some (JArr (map (j_video f64_text) (ct_video c))) end with Some v => z_array z_video v | None => true end = true
    <-> Forall (fun i => video_for_web f64_text (vi_config i)) (ct_video c)).
  { assert (X : forallb z_video (map (j_video f64_text) (ct_video c)) = true <-> Forall (fun i => video_for_web f64_text (vi_config i)) (ct_video c)).
    { rewrite all_map, !Forall_forall. rewrite Forall_forall in V. split; intros H i I; specialize (H i I); destruct (V i I); apply video_exact; auto. }
    destruct (ct_video c); [split; auto|exact X]. }
  assert (QA : match match ct_audio c with [] => None | _ => Some (JArr (map j_audio (ct_audio c))) end with Some v => z_array z_audio v | None => true end = true
    <-> Forall (fun i => within u32_max (ac_bitrate (ai_config i))) (ct_audio c)).
  { assert (X : forallb z_audio (map j_audio (ct_audio c)) = true <-> Forall (fun i => within u32_max (ac_bitrate (ai_config i))) (ct_audio c)).
    { rewrite all_map, !Forall_forall. rewrite Forall_forall in A. split; intros H i I; specialize (H i I); destruct (A i I); apply audio_exact; auto. }
    destruct (ct_audio c); [split; auto|exact X]. }
  rewrite !andb_true_iff, QV, QA, opt_all. unfold for_web. split.
  - intros ((H1 & H2) & H3). split; [exact H1|split; [exact H2|]]. intros o E. apply (location_exact _ _ (L _ E)), H3, E.
  - intros (H1 & H2 & H3). split; [split; [exact H1|exact H2]|]. intros o E. apply (location_exact _ _ (L _ E)), H3, E.
Qed.
Theorem web_decodes nulls c :
  (forall x t, f64_text x = Some t -> json_number t) -> (forall x t, f32_text x = Some t -> json_number t) -> catalog_value c ->
  (js_decodes (print_catalog f64_text f32_text nulls c) = true <-> for_web f64_text f32_text nulls c).
Proof.
  intros N64 N32 V. assert (D : document (j_catalog f64_text f32_text nulls c) (print_catalog f64_text f32_text nulls c)) by (apply catalog_printed; assumption).
  unfold js_decodes. rewrite (proj2 (read_json_exact _ _) D). apply catalog_for_web. exact V.
Qed.
End Floats.
