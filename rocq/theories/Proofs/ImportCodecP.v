(** Proofs for C123 to C126: what the importer says about the tracks of a movie. *)
From Coq Require Import NArith Arith List Bool Lia.
From Coq Require Import Strings.String.
From Coq Require Import Init.Byte Strings.Byte.
From Verif.Model Require Import Base Text Codec Catalog CatalogJson Import ImportCodec.
From Verif.Spec Require Import CodingSpec CodecSpec ImportCodecSpec.
From Verif.Proofs Require Import BaseP TextP CodecP.
From Verif.Proofs Require MediaP ImportSampleP.
Import ListNotations.
Open Scope N_scope.
Open Scope list_scope.

(** ** Numbers *)
Lemma show_numeral radix n : 2 <= radix <= 36 -> numeral radix n (show radix n).
Proof.
  intros R. apply digits_iff; [lia|]. assert (P := parse_show radix n n R (N.le_refl n)). unfold parse_uint in P.
  destruct (show_spec radix n) as (ds & E & F & V); [lia|]. 
  assert (K : strip_sign x2b (show radix n) = show radix n).
  { destruct (strip_sign_spec x2b (show radix n)) as [[-> _]|[Q _]]; [reflexivity|]. exfalso. rewrite E in Q.
    destruct ds as [|d ds]; [discriminate|]. cbn [map] in Q. injection Q as Q _. inversion F; subst.
    revert Q. apply show_digit_not; [lia|reflexivity]. }
  rewrite K in P. destruct (show radix n) as [|b t]; [discriminate|].
  destruct (digits radix 0 (b :: t)) as [v|]; [|discriminate]. destruct (v <=? n); congruence.
Qed.
Lemma show_decimal n : decimal_text n (show 10 n).
Proof.
  destruct (show_spec 10 n) as (ds & E & F & _ & NE & Z & O); [lia|]. split; [|split].
  - rewrite E. destruct ds; [congruence|discriminate].
  - apply show_numeral. lia.
  - intros H. destruct (N.eq_dec n 0) as [->|Q].
    + rewrite (O ltac:(lia)) in E. rewrite E. reflexivity.
    + exfalso. specialize (Z Q). rewrite E in H. destruct ds as [|d ds]; [congruence|]. cbn in H, Z. injection H as H.
      inversion F; subst. apply (f_equal n_of) in H. unfold show_digit in H. destruct (N.ltb_spec d 10); [|lia].
      rewrite n_of_small in H by lia. change (n_of x30) with 48 in H. lia.
Qed.
Lemma numeral_unique radix v w t : radix <= 36 -> numeral radix v t -> numeral radix w t -> v = w.
Proof. intros R H K. apply digits_iff in H, K; try exact R. congruence. Qed.

(** ** C123 *)
Section Floats.
Context {F64 F32 : Type}.

Lemma called_show kind k : called kind k (TrackInfo (text kind ++ show 10 (mt_id k)) 2).
Proof. split; [|reflexivity]. exists (show 10 (mt_id k)). split; [apply show_decimal|reflexivity]. Qed.

Lemma init_video_ok k i : mt_hdlr k = Vide -> init_video (F64 := F64) k = inl i -> supported k /\ video_described k i.
Proof.
  intros H E. unfold init_video in E. destruct (mt_entries k) as [|e [|]] eqn:Ek; cbn [the_entry] in E; try discriminate.
  assert (C : forall e', mt_entries k = [e'] -> e' = e) by (intros e' Q; congruence). 
  destruct e as [v c|v c|v c|v|v c|v c|a d|a|n|]; try discriminate.
  1: destruct (av_body c) as [b|] eqn:B; [|discriminate].
  2,3: unfold init_h265 in E; destruct (hv_body c) as [b|] eqn:B; [|discriminate].
  all: injection E as <-; split;
    [eexists; split; [exact Ek|]; rewrite H; cbn; eauto
    |split; [apply called_show|]; do 2 eexists; split; [exact Ek|]; cbn; repeat split; eauto].
  destruct (a_tier c), (a_high c); cbn; auto.
Qed.
Lemma init_video_err k e : mt_hdlr k = Vide -> init_video (F64 := F64) k = inr e -> ~ supported k /\ refusal k e.
Proof.
  intros H E. unfold init_video in E. unfold supported, refusal. rewrite H.
  destruct (mt_entries k) as [|x [|]] eqn:Ek; cbn [the_entry] in E.
  1,3: injection E as <-; split; [intros (y & Q & _); discriminate|reflexivity].
  destruct x as [v c|v c|v c|v|v c|v c|a d|a|n|]; try discriminate.
  1: destruct (av_body c) as [b|n] eqn:B; [discriminate|].
  2,3: unfold init_h265 in E; destruct (hv_body c) as [b|n] eqn:B; [discriminate|].
  all: injection E as <-; split; [intros (y & Q & K); injection Q as <-; cbn in K; try exact K; destruct K; congruence|eauto; reflexivity].
Qed.
Lemma init_audio_ok k i : mt_hdlr k = Soun -> init_audio k = inl i -> supported k /\ audio_described k i.
Proof.
  intros H E. unfold init_audio in E. destruct (mt_entries k) as [|e [|]] eqn:Ek; cbn [the_entry] in E; try discriminate.
  destruct e as [v c|v c|v c|v|v c|v c|a d|a|n|]; try discriminate.
  - destruct (byte_eqb_spec (es_type d) x40) as [T|T]; cbn [negb] in E; [|discriminate]. injection E as <-. split.
    + eexists. split; [exact Ek|]. rewrite H. exact T.
    + split; [apply called_show|]. split; [reflexivity|]. eexists. split; [exact Ek|]. cbn. repeat split.
      exists (N.max (es_avg d) (es_max d)). split; [|reflexivity]. unfold larger. lia.
  - injection E as <-. split.
    + eexists. split; [exact Ek|]. rewrite H. exact I.
    + split; [apply called_show|]. split; [reflexivity|]. eexists. split; [exact Ek|]. cbn. repeat split.
Qed.
Lemma init_audio_err k e : mt_hdlr k = Soun -> init_audio k = inr e -> ~ supported k /\ refusal k e.
Proof.
  intros H E. unfold init_audio in E. unfold supported, refusal. rewrite H.
  destruct (mt_entries k) as [|x [|]] eqn:Ek; cbn [the_entry] in E.
  1,3: injection E as <-; split; [intros (y & Q & _); discriminate|reflexivity].
  destruct x as [v c|v c|v c|v|v c|v c|a d|a|n|]; try discriminate.
  7: destruct (byte_eqb_spec (es_type d) x40) as [T|T]; cbn [negb] in E; [discriminate|].
  all: injection E as <-; split; [intros (y & Q & K); injection Q as <-; cbn in K; contradiction|eauto; reflexivity].
Qed.

Lemma firstn_snoc_lt {A} (l : list A) x n : (n <= List.length l)%nat -> firstn n (l ++ [x]) = firstn n l.
Proof. intros H. rewrite firstn_app. replace (n - List.length l)%nat with 0%nat by lia. apply app_nil_r. Qed.
Lemma lists_add l r (c : @catalog_info F64 F32) : lists l c -> lists (l ++ [r]) (add r c).
Proof.
  intros (V & A & O). unfold lists, videos, audios. rewrite !flat_map_app. destruct r; cbn; rewrite ?app_nil_r; repeat split;
    unfold videos, audios in *; congruence.
Qed.
Lemma made_create ks k r (m : movie F64 F32) : made_of ks m -> described k r -> made_of (ks ++ [k]) (create r (mt_id k) m).
Proof.
  intros (D & L & N & P & T) Q. assert (Le := MediaP.Forall2_length _ _ _ D). unfold create, made_of. cbn [mo_made mo_catalog mo_published mo_tracks].
  assert (L1 := lists_add _ r _ L).
  split; [apply Forall2_app; [exact D|constructor; [exact Q|constructor]]|]. split; [exact L1|].
  split; [rewrite !app_length; cbn; lia|]. split.
  - intros i c E. destruct (Nat.lt_ge_cases i (List.length (mo_published m))) as [Hi|Hi].
    + rewrite nth_error_app1 in E by exact Hi. rewrite firstn_snoc_lt by lia. apply P, E.
    + rewrite nth_error_app2 in E by exact Hi. destruct (i - List.length (mo_published m))%nat as [|j] eqn:J; cbn in E; [|destruct j; discriminate].
      injection E as <-. rewrite firstn_all2 by (rewrite app_length; cbn; lia). exact L1.
  - intros id t. rewrite ImportSampleP.hget_put. destruct (N.eqb_spec id (mt_id k)) as [->|Ne].
    + split.
      * intros [= <-]. split; [exists k; rewrite nth_error_app2, Le, Nat.sub_diag by lia; split; reflexivity|].
        intros t' k' E _. assert (t' < List.length (ks ++ [k]))%nat by (apply nth_error_Some; congruence). rewrite app_length in H. cbn in H. lia.
      * intros [(k' & E & _) M]. f_equal. assert (t < List.length (ks ++ [k]))%nat by (apply nth_error_Some; congruence). rewrite app_length in H. cbn in H.
        specialize (M (List.length ks) k). rewrite nth_error_app2, Nat.sub_diag in M by lia. specialize (M eq_refl eq_refl). lia.
    + rewrite T. split.
      * intros [(k' & E & K) M]. assert (t < List.length ks)%nat by (apply nth_error_Some; congruence).
        split; [exists k'; rewrite nth_error_app1 by lia; auto|]. intros t' k1 E1 K1.
        destruct (Nat.lt_ge_cases t' (List.length ks)) as [Ht|Ht]; [rewrite nth_error_app1 in E1 by lia; eauto|].
        rewrite nth_error_app2 in E1 by lia. destruct (t' - List.length ks)%nat as [|j]; cbn in E1; [congruence|destruct j; discriminate].
      * intros [(k' & E & K) M]. destruct (Nat.lt_ge_cases t (List.length ks)) as [Ht|Ht].
        -- rewrite nth_error_app1 in E by lia. split; [eauto|]. intros t' k1 E1 K1. apply (M t' k1); [|exact K1].
           rewrite nth_error_app1; [exact E1|]. apply nth_error_Some. congruence.
        -- rewrite nth_error_app2 in E by lia. destruct (t - List.length ks)%nat as [|j]; cbn in E; [congruence|destruct j; discriminate].
Qed.
Lemma made_new : made_of [] (movie_new (F64 := F64) (F32 := F32)).
Proof.
  split; [constructor|]. split; [repeat split|]. split; [reflexivity|]. split; [intros [|i] c E; discriminate|].
  intros id t. split; [discriminate|]. intros [(k & E & _) _]. destruct t; discriminate.
Qed.

(** One track *)
Lemma init_one k ks (m : movie F64 F32) :
  (exists r, supported k /\ described k r /\ init_movie (k :: ks) m = init_movie ks (create r (mt_id k) m)) \/
  (exists e, ~ supported k /\ refusal k e /\ init_movie (k :: ks) m = (m, Some e)).
Proof.
  cbn [init_movie]. destruct (mt_hdlr k) eqn:H.
  - destruct (init_video k) as [v|e] eqn:E; [left; exists (RV v)|right; exists e].
    + destruct (init_video_ok k v H E) as [S D]. split; [exact S|]. split; [|reflexivity]. unfold described. rewrite H. exact D.
    + destruct (init_video_err k e H E) as [S D]. auto.
  - destruct (init_audio k) as [v|e] eqn:E; [left; exists (RA v)|right; exists e].
    + destruct (init_audio_ok k v H E) as [S D]. split; [exact S|]. split; [|reflexivity]. unfold described. rewrite H. exact D.
    + destruct (init_audio_err k e H E) as [S D]. auto.
  - right. eexists. split; [|split; [|reflexivity]]; unfold supported, refusal; rewrite H; [intros (x & _ & [])|reflexivity].
  - right. eexists. split; [|split; [|reflexivity]]; unfold supported, refusal; rewrite H; [intros (x & _ & [])|reflexivity].
Qed.

Lemma init_made ks : forall pre (m : movie F64 F32) m' o, made_of pre m -> init_movie ks m = (m', o) ->
  match o with
  | None => Forall supported ks /\ made_of (pre ++ ks) m'
  | Some e => exists ks1 k ks2, ks = ks1 ++ k :: ks2 /\ Forall supported ks1 /\ ~ supported k /\ refusal k e /\ made_of (pre ++ ks1) m'
  end.
Proof.
  induction ks as [|k ks IH]; intros pre m m' o M E.
  - injection E as <- <-. rewrite app_nil_r. auto.
  - destruct (init_one k ks m) as [(r & S & D & Q)|(e & S & R & Q)]; rewrite Q in E.
    + specialize (IH (pre ++ [k]) _ m' o (made_create _ _ _ _ M D) E). destruct o as [e|].
      * destruct IH as (ks1 & k' & ks2 & -> & F & N & R & M'). exists (k :: ks1), k', ks2. rewrite <- app_assoc in M'.
        split; [reflexivity|]. split; [constructor; auto|]. auto.
      * destruct IH as [F M']. rewrite <- app_assoc in M'. auto.
    + injection E as <- <-. exists [], k, ks. rewrite app_nil_r. auto.
Qed.

Lemma imported_all ks (m : movie F64 F32) : init_movie ks movie_new = (m, None) -> Forall supported ks /\ made_of ks m.
Proof. intros E. exact (init_made ks [] _ _ None made_new E). Qed.
Lemma imported_some ks e (m : movie F64 F32) : init_movie ks movie_new = (m, Some e) ->
  exists ks1 k ks2, ks = ks1 ++ k :: ks2 /\ Forall supported ks1 /\ ~ supported k /\ refusal k e /\ made_of ks1 m.
Proof. intros E. exact (init_made ks [] _ _ (Some e) made_new E). Qed.
Lemma imported_iff ks : (exists m : movie F64 F32, init_movie ks movie_new = (m, None)) <-> Forall supported ks.
Proof.
  split; [intros [m E]; apply (imported_all ks m E)|]. intros F. destruct (init_movie ks movie_new) as [m [e|]] eqn:E; [|eauto].
  destruct (imported_some _ _ _ E) as (ks1 & k & ks2 & -> & _ & N & _). apply Forall_app in F. destruct F as [_ F]. inversion F. contradiction.
Qed.
(** A second header *)
Lemma init_app ks ks' : forall (m : movie F64 F32), init_movie (ks ++ ks') m =
  match init_movie ks m with (m', None) => init_movie ks' m' | r => r end.
Proof.
  induction ks as [|k ks IH]; intros m; [reflexivity|]. cbn [app init_movie].
  destruct (mt_hdlr k); [destruct (init_video k)|destruct (init_audio k)| |]; try apply IH; reflexivity.
Qed.

(** ** The other half of the importer *)
Lemma init_agrees ks : forall ts (m : movie F64 F32) s m' o, Forall2 stands_for ks ts ->
  im_tracks s = mo_tracks m -> List.length (im_made s) = List.length (mo_made m) -> init_movie ks m = (m', o) ->
  exists s', init_traks ts s = (s', match o with
      | None => IOk
      | Some (UnsupportedTrack b) => IErr (EUnsupportedTrack b)
      | Some e => IErr (ECodec (code_of e))
      end) /\ im_tracks s' = mo_tracks m' /\ List.length (im_made s') = List.length (mo_made m').
Proof.
  induction ks as [|k ks IH]; intros ts m s m' o F T L E; inversion F as [|? t ? ts' S F']; subst.
  - injection E as <- <-. exists s. auto.
  - destruct S as (Si & Sh & _ & Sc). destruct (init_one k ks m) as [(r & S & D & Q)|(e & S & R & Q)]; rewrite Q in E.
    + assert (C : tk_codec t = None).
      { destruct (tk_codec t) as [n|]; [|reflexivity]. destruct Sc as (e & R & _). exfalso. destruct S as (x & Ex & Hx).
        unfold refusal in R. rewrite Ex in R. destruct (mt_hdlr k); try contradiction; destruct x; cbn in Hx, R; try contradiction;
          try (destruct Hx as [d Hx]; destruct R as (z & R & _); congruence). destruct R as [R _]. contradiction. }
      assert (H : is_vide (tk_hdlr t) = true \/ is_soun (tk_hdlr t) = true).
      { rewrite Sh. destruct S as (x & _ & Hx). destruct (mt_hdlr k); try contradiction; auto. }
      specialize (IH ts' (create r (mt_id k) m) (iwith_track s (tk_id t) (tk_hdlr t)) m' o F').
      destruct IH as (s' & IH).
      * cbn. rewrite T, Si, L. reflexivity.
      * cbn. rewrite !app_length. cbn. lia.
      * exact E.
      * exists s'. split; [|exact (proj2 IH)]. rewrite <- (proj1 IH). cbn [init_traks]. rewrite C. destruct (tk_hdlr t); destruct H; try discriminate; reflexivity.
    + injection E as <- <-. exists s. split; [|auto]. cbn [init_traks]. rewrite Sh.
      destruct (mt_hdlr k) eqn:H; unfold refusal in R; rewrite H in R; try (subst e; reflexivity).
      * destruct (tk_codec t) as [n|].
        -- destruct Sc as (e' & R' & ->). unfold refusal in R'. rewrite H in R'.
           assert (e' = e).
           { destruct (mt_entries k) as [|x [|]]; try congruence. destruct x; try congruence; try contradiction;
               destruct R as (a & R1 & R2), R' as (b & R3 & R4); congruence. }
           subst e'. f_equal. destruct e; try reflexivity. exfalso.
           destruct (mt_entries k) as [|x [|]]; try congruence; destruct x; try congruence; try contradiction; destruct R as (a & R1 & R2); congruence.
        -- exfalso. destruct Sc as [Sc|[Sc|Sc]]; [exact (S Sc)|congruence|congruence].
      * destruct (tk_codec t) as [n|].
        -- destruct Sc as (e' & R' & ->). unfold refusal in R'. rewrite H in R'.
           assert (e' = e).
           { destruct (mt_entries k) as [|x [|]]; try congruence. destruct x; try congruence; try contradiction;
               destruct R as (R1 & R2), R' as (R3 & R4); congruence. }
           subst e'. f_equal. destruct e; try reflexivity. exfalso.
           destruct (mt_entries k) as [|x [|]]; try congruence; destruct x; try congruence; try contradiction; destruct R as (R1 & R2); congruence.
        -- exfalso. destruct Sc as [Sc|[Sc|Sc]]; [exact (S Sc)|congruence|congruence].
Qed.
End Floats.

(** ** C124 *)
Lemma nz_zero v t : numeral 10 v t -> v = 0 -> hd_error t <> Some x30 -> t = [].
Proof.
  induction 1 as [|v ds d b H IH D]; intros V N; [reflexivity|]. exfalso. assert (v = 0) by lia. assert (d = 0) by lia. subst d.
  rewrite IH in N; [|assumption|destruct ds; [discriminate|exact N]]. cbn in N. apply N. f_equal.
  destruct D as [_ [[_ B]|[B _]]]; [|lia]. apply n_of_inj. exact B.
Qed.
Lemma nz_unique v t : numeral 10 v t -> hd_error t <> Some x30 -> forall t', numeral 10 v t' -> hd_error t' <> Some x30 -> t = t'.
Proof.
  induction 1 as [|v ds d b H IH D]; intros N t' H' N'.
  - symmetry. apply (nz_zero 0 t' H' eq_refl N').
  - inversion H' as [Q|v' ds' d' b' K D' Q Q']; subst.
    + assert (E := nz_zero (v * 10 + d) (ds ++ [b]) (num_snoc 10 v ds d b H D) (eq_sym Q) N). destruct ds; discriminate.
    + assert (d < 10) by apply D. assert (d' < 10) by apply D'. assert (v = v') by lia. assert (d = d') by lia. subst v' d'.
      f_equal; [apply IH; [destruct ds; [discriminate|exact N]|exact K|destruct ds'; [discriminate|exact N']]|].
      f_equal. apply n_of_inj. change n_of with Byte.to_N. destruct D as [_ [[_ B]|[B _]]], D' as [_ [[_ B']|[B' _]]]; lia.
Qed.
Lemma decimal_unique v t t' : decimal_text v t -> decimal_text v t' -> t = t'.
Proof.
  assert (Z : forall v t, decimal_text v t -> hd_error t = Some x30 -> v = 0 /\ t = [x30]).
  { intros v0 t0 (_ & N & H) E. rewrite (H E) in *. split; [|reflexivity]. apply (numeral_unique 10 v0 0 [x30] ltac:(lia) N). apply digits_iff; [lia|reflexivity]. }
  intros A B. destruct (list_eq_dec Byte.byte_eq_dec t [x30]) as [->|Nt].
  - destruct (Z v [x30] A eq_refl) as [-> _]. destruct (list_eq_dec Byte.byte_eq_dec t' [x30]) as [->|Nt']; [reflexivity|]. exfalso.
    apply (proj1 B). apply (nz_zero 0 t' (proj1 (proj2 B)) eq_refl). intros E. apply Nt', (Z 0 t' B E).
  - assert (N : hd_error t <> Some x30) by (intros E; apply Nt, (Z v t A E)). destruct (list_eq_dec Byte.byte_eq_dec t' [x30]) as [->|Nt'].
    + exfalso. destruct (Z v [x30] B eq_refl) as [-> _]. apply (proj1 A). apply (nz_zero 0 t (proj1 (proj2 A)) eq_refl N).
    + apply (nz_unique v t (proj1 (proj2 A)) N t' (proj1 (proj2 B))). intros E. apply Nt', (Z v t' B E).
Qed.
Lemma numeral_first v t : numeral 10 v t -> t <> [] -> exists b r, t = b :: r /\ 48 <= n_of b <= 57.
Proof.
  induction 1 as [|v ds d b H IH D]; [congruence|]. intros _. destruct ds as [|c r].
  - exists b, []. split; [reflexivity|]. destruct D as [L [[_ B]|[B _]]]; [change n_of with Byte.to_N|]; lia.
  - destruct IH as (c' & r' & E & B); [discriminate|]. injection E as <- <-. exists c, (r ++ [b]). auto.
Qed.

Section Names.
Context {F64 F32 : Type}.
Lemma name_is k (r : rendition (@video_info F64) audio_info) : described k r ->
  exists n, decimal_text (mt_id k) n /\
    ((mt_hdlr k = Vide /\ name_of r = ascii "video" ++ n) \/ (mt_hdlr k = Soun /\ name_of r = ascii "audio" ++ n)).
Proof.
  unfold described. destruct (mt_hdlr k), r as [v|a]; try contradiction; intros D; destruct D as [[(n & D & E) _] _];
    exists n; (split; [exact D|]); cbn [name_of]; auto.
Qed.
Lemma same_name k k' (r r' : rendition (@video_info F64) audio_info) : described k r -> described k' r' ->
  name_of r = name_of r' <-> mt_hdlr k = mt_hdlr k' /\ mt_id k = mt_id k'.
Proof.
  intros D D'. destruct (name_is k r D) as (n & N & C), (name_is k' r' D') as (n' & N' & C'). split.
  - intros E. destruct C as [[H C]|[H C]], C' as [[H' C']|[H' C']]; rewrite C, C' in E; cbn in E; try discriminate.
    all: split; [congruence|]; injection E as E; subst n'; exact (numeral_unique 10 _ _ n ltac:(lia) (proj1 (proj2 N)) (proj1 (proj2 N'))).
  - intros [H I]. rewrite I in N. assert (n = n') by exact (decimal_unique _ _ _ N N'). subst n'.
    destruct C as [[K C]|[K C]], C' as [[K' C']|[K' C']]; congruence.
Qed.
Lemma not_catalog k (r : rendition (@video_info F64) audio_info) : described k r -> name_of r <> ascii "catalog.json".
Proof. intros D. destruct (name_is k r D) as (n & _ & [[_ ->]|[_ ->]]); discriminate. Qed.
Lemma names_distinct_iff ks (m : movie F64 F32) : made_of ks m ->
  NoDup (map name_of (mo_made m)) <-> NoDup (map (fun k => (mt_hdlr k, mt_id k)) ks).
Proof.
  intros (D & _). revert D. generalize (mo_made m). intros l D. induction D as [|k r ks l K D IH]; cbn; [split; constructor|].
  assert (I : In (name_of r) (map name_of l) <-> In (mt_hdlr k, mt_id k) (map (fun k => (mt_hdlr k, mt_id k)) ks)).
  { clear IH. induction D as [|k' r' ks l K' D IH]; cbn; [reflexivity|]. rewrite IH. rewrite (same_name k' k r' r K' K).
    split; (intros [E|E]; [left|right; exact E]); [destruct E; congruence|split; congruence]. }
  split; intros N; inversion N; subst; constructor; try tauto.
Qed.
End Names.
