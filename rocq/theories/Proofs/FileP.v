(** Importing a whole file. *)
From Coq Require Import NArith ZArith Arith List Lia Bool.
From Coq Require Import Init.Byte Strings.Byte.
From Verif.Model Require Import Base Coding Media Import.
From Verif.Spec Require Import ImportSpec FileSpec.
From Verif.Proofs Require Import ImportSampleP.
Import ListNotations.
Open Scope N_scope.

(** ** The rule for keyframes *)
Definition spares (id : N) (p : info * mframe) : Prop :=
  mf_key (snd p) = true -> in_id (fst p) <> id /\ (in_video (fst p) = true -> ~ In id (in_audio (fst p))).
Lemma recent_snoc hist i x id t : recent (hist ++ [(i, x)]) id t <->
  (in_id i = id /\ mf_key x = true /\ mf_ts x = t) \/ (recent hist id t /\ spares id (i, x)).
Proof.
  split.
  - intros (pre & i' & x' & post & E & A & B & C & D). destruct post as [|q post _] using rev_ind.
    + apply app_inj_tail in E. destruct E as [_ E]. injection E as -> ->. left. auto.
    + rewrite app_comm_cons, app_assoc in E. apply app_inj_tail in E. destruct E as [-> <-].
      apply Forall_app in D. destruct D as [D1 D2]. inversion D2 as [|? ? D3 _]; subst. right. split; [|exact D3].
      exists pre, i', x', post. auto.
  - intros [(A & B & C)|((pre & i' & x' & post & -> & A & B & C & D) & E)].
    + exists hist, i, x, []. auto.
    + exists pre, i', x', (post ++ [(i, x)]). rewrite <- app_assoc. split; [reflexivity|]. do 3 (split; [assumption|]).
      apply Forall_app. split; [exact D|]. constructor; [exact E|constructor].
Qed.
Lemma keyed_snoc hist i x : keyed hist -> (mf_key x = true <-> starts hist i (mf_ts x)) -> keyed (hist ++ [(i, x)]).
Proof.
  intros K H pre i' x' post E. destruct post as [|q post _] using rev_ind.
  - apply app_inj_tail in E. destruct E as [<- E]. injection E as <- <-. exact H.
  - rewrite app_comm_cons, app_assoc in E. apply app_inj_tail in E. destruct E as [-> _]. exact (K pre i' x' post eq_refl).
Qed.
Lemma keyed_prefix a b : keyed (a ++ b) -> keyed a.
Proof. intros K pre i x post ->. apply (K pre i x (post ++ b)). rewrite <- app_assoc. reflexivity. Qed.

(** What the importer remembers. *)
Definition remembers (hist : list (info * mframe)) (last : hmap N) : Prop := forall id t, hget id last = Some t <-> recent hist id t.
Lemma forget_get id ks : forall last : hmap N,
  hget id (fold_left (fun l a => if is_soun (tk_hdlr a) then hdel (tk_id a) l else l) ks last) =
  if existsb (fun a => is_soun (tk_hdlr a) && (tk_id a =? id)) ks then None else hget id last.
Proof.
  induction ks as [|k ks IH]; intro last; [reflexivity|]. cbn [fold_left existsb]. rewrite IH.
  destruct (is_soun (tk_hdlr k)); cbn [andb orb]; [|reflexivity].
  rewrite hget_del, (N.eqb_sym id). destruct (tk_id k =? id); cbn [orb]; [|reflexivity].
  destruct (existsb _ ks); reflexivity.
Qed.
Lemma video_key_sync f : video_key f = true <-> sync f.
Proof.
  unfold video_key, sync. rewrite andb_true_iff, negb_true_iff, N.eqb_eq, N.eqb_neq, !N.shiftr_div_pow2.
  change 3 with (N.ones 2). change 1 with (N.ones 1) at 1. rewrite !N.land_ones. change (2 ^ 2) with 4. change (2 ^ 1) with 2.
  pose proof (N.mod_lt (f / 2 ^ 16) 2 ltac:(discriminate)). split; intros [A B]; split; try assumption; lia.
Qed.

Lemma audio_in v id : existsb (fun a => is_soun (tk_hdlr a) && (tk_id a =? id)) (mv_trak v) = true <-> In id (audio_of v).
Proof.
  unfold audio_of. rewrite existsb_exists, in_map_iff. split.
  - intros (k & I & E). apply andb_true_iff in E. destruct E as [E1 E2]. exists k. split; [apply N.eqb_eq, E2|]. apply filter_In. split; [exact I|].
    destruct (tk_hdlr k); first [discriminate|reflexivity].
  - intros (k & E & I). apply filter_In in I. destruct I as [I T]. exists k. split; [exact I|]. apply andb_true_iff. split; [|apply N.eqb_eq, E].
    destruct (tk_hdlr k); first [discriminate|reflexivity].
Qed.
Lemma key_step v k hist last flags ts last' key i x : tk_id k = in_id i ->
  in_video i = is_vide (tk_hdlr k) -> in_flags i = flags -> in_audio i = audio_of v -> mf_ts x = ts -> mf_key x = key ->
  sample_key v k flags ts last = Val (last', key) ->
  remembers hist last -> keyed hist ->
  remembers (hist ++ [(i, x)]) last' /\ keyed (hist ++ [(i, x)]).
Proof.
  intros Ek Iv If Ia Ts Ky E Rm Kd. unfold remembers in Rm. unfold sample_key in E. rewrite Ek in E.
  assert (No : mf_key x = false -> remembers (hist ++ [(i, x)]) last).
  { intros KF id t. rewrite recent_snoc, Rm. unfold spares. cbn [snd]. rewrite KF. split; [intros R; right; split; [exact R|discriminate]|].
    intros [(_ & Q & _)|(R & _)]; [discriminate|exact R]. }
  destruct (is_vide (tk_hdlr k)) eqn:V.
  - destruct (video_key flags) eqn:VK.
    + injection E as <- Kt. assert (KT : mf_key x = true) by congruence. clear Kt. split.
      * intros id t. rewrite hget_put, recent_snoc. unfold spares. cbn [fst snd]. rewrite KT, Iv, Ia.
        destruct (N.eqb_spec id (in_id i)) as [->|Ne].
        { split; [intros [= <-]; left; auto|]. intros [(_ & _ & <-)|(_ & Q)]; [congruence|]. destruct (Q eq_refl) as [Q1 _]. congruence. }
        rewrite forget_get. pose proof (audio_in v id) as A. destruct (existsb _ (mv_trak v)).
        { split; [discriminate|]. intros [(Q & _)|(_ & Q)]; [congruence|]. destruct (Q eq_refl) as [_ Q2]. exfalso. apply Q2; [reflexivity|]. apply A. reflexivity. }
        rewrite Rm. split; [intros R; right; split; [exact R|]; intros _; split; [congruence|]; intros _ I; apply A in I; discriminate|].
        intros [(Q & _)|(R & _)]; [congruence|exact R].
      * apply keyed_snoc; [exact Kd|]. unfold starts. rewrite Iv, If, <- video_key_sync. rewrite KT, VK. split; reflexivity.
    + injection E as <- Kf. assert (KF : mf_key x = false) by congruence. clear Kf. split; [exact (No KF)|].
      apply keyed_snoc; [exact Kd|]. unfold starts. rewrite Iv, If, <- video_key_sync. rewrite KF, VK. split; discriminate.
  - assert (YK : mf_key x = true -> remembers (hist ++ [(i, x)]) (hput (in_id i) ts last)).
    { intros KT id t. rewrite hget_put, recent_snoc. unfold spares. cbn [fst snd]. rewrite KT, Iv. destruct (N.eqb_spec id (in_id i)) as [->|Ne].
      - split; [intros [= <-]; left; auto|]. intros [(_ & _ & <-)|(_ & Q)]; [congruence|]. destruct (Q eq_refl) as [Q1 _]. congruence.
      - rewrite Rm. split; [intros R; right; split; [exact R|]; intros _; split; [congruence|discriminate]|]. intros [(Q & _)|(R & _)]; [congruence|exact R]. }
    destruct (hget (in_id i) last) as [prev|] eqn:G.
    + destruct (N.ltb_spec ts prev) as [|Le]; [discriminate|]. apply Rm in G. destruct (N.ltb_spec 10000000000 (ts - prev)) as [Far|Near].
      * injection E as <- Kt. assert (KT : mf_key x = true) by congruence. split; [exact (YK KT)|].
        apply keyed_snoc; [exact Kd|]. unfold starts. rewrite Iv, Ts. split; [|auto]. intros _ (t & Rt & Lt). apply Rm in G. apply Rm in Rt.
        assert (t = prev) by congruence. lia.
      * injection E as <- Kf. assert (KF : mf_key x = false) by congruence. split; [exact (No KF)|].
        apply keyed_snoc; [exact Kd|]. unfold starts. rewrite Iv, Ts, KF. split; [discriminate|]. intros N. exfalso. apply N. exists prev. split; [exact G|lia].
    + injection E as <- Kt. assert (KT : mf_key x = true) by congruence. split; [exact (YK KT)|].
      apply keyed_snoc; [exact Kd|]. unfold starts. rewrite Iv, Ts. split; [|auto]. intros _ (t & Rt & _). apply Rm in Rt. congruence.
Qed.

Lemma combine_prefix {A B} (a : list A) (b : list B) a' : (length b <= length a)%nat -> combine (a ++ a') b = combine a b.
Proof.
  revert b. induction a as [|x a IH]; intros [|y b] H; cbn in *; try reflexivity; try lia.
  - destruct a'; reflexivity.
  - f_equal. apply IH. lia.
Qed.
Lemma combine_both {A B} (a : list A) (b : list B) a' b' : length b = length a -> combine (a ++ a') (b ++ b') = combine a b ++ combine a' b'.
Proof. revert b. induction a as [|x a IH]; intros [|y b] H; cbn in *; try reflexivity; try lia. f_equal. apply IH. lia. Qed.

(** ** Keyframes of a fragment *)
Section Keys.
  Context (w : N) (v : moov) (data : bytes).

  Lemma samples_keys k t tf es hist : find (fun k => tk_id k =? tf_id tf) (mv_trak v) = Some k -> forall dts off s s' o,
    samples Debug w v k t tf data es dts off s = (s', o) -> o <> IPanic ->
    dts + total (map (dur_of v tf) es) < 2 ^ 63 ->
    Forall (fun e => (- 2 ^ 31 <= cts_of e < 2 ^ 31)%Z) es ->
    remembers hist (im_last s) -> keyed hist ->
    exists new, im_log s' = im_log s ++ new /\ (length new <= length es)%nat /\ (o = IOk -> length new = length es) /\
      let h := combine (map (fun e => Info (tf_id tf) (is_video k) (flags_of v tf e) (audio_of v)) es) (map snd new) in
      remembers (hist ++ h) (im_last s') /\ keyed (hist ++ h).
  Proof.
    intros Fk. pose proof (find_some _ _ Fk) as [_ Ik]. apply N.eqb_eq in Ik. revert hist. induction es as [|e es IH]; intros hist dts off s s' o E Ho Hd Hc Rm Kd.
    - cbn in E. injection E as <- <-. exists []. rewrite !app_nil_r. cbn. rewrite app_nil_r. auto.
    - cbn [samples] in E. cbn [map total] in Hd. inversion Hc as [|? ? Hc1 Hc2]; subst.
      destruct (sample Debug w v k t tf data e dts off s) as [s1 r] eqn:Es.
      assert (Hd0 : dts < 2 ^ 63) by lia.
      destruct r as [d1 o1|o1].
      + destruct (sample_debug _ _ _ _ _ _ _ _ _ _ _ _ Hd0 Hc1 Es ltac:(discriminate))
          as [[H _]|(ts & key & last & Hr & Hl & Hts & Hk & ->)]; [discriminate|].
        injection Hr as -> ->.
        set (i := Info (tf_id tf) (is_video k) (flags_of v tf e) (audio_of v)).
        set (x := MFrame ts key (bytes_at data (Z.of_N off) (size_of v tf e))).
        destruct (key_step v k hist (im_last s) (flags_of v tf e) ts last key i x Ik eq_refl eq_refl eq_refl eq_refl eq_refl Hk Rm Kd) as [Rm1 Kd1].
        assert (Hd2 : dts + dur_of v tf e + total (map (dur_of v tf) es) < 2 ^ 63) by lia.
        destruct (IH (hist ++ [(i, x)]) _ _ _ _ _ E Ho Hd2 Hc2 Rm1 Kd1) as (new & El & Hn & Hok & Rm2 & Kd2).
        exists ((t, x) :: new). cbn [iwith_log iwith_last im_log] in El. rewrite <- app_assoc in El. split; [exact El|].
        cbn [length map snd combine]. split; [lia|]. split; [intro Q; rewrite (Hok Q); reflexivity|].
        rewrite <- app_assoc in Rm2, Kd2. exact (conj Rm2 Kd2).
      + injection E as <- <-.
        destruct (sample_debug _ _ _ _ _ _ _ _ _ _ _ _ Hd0 Hc1 Es ltac:(congruence))
          as [(H & -> & Hl)|(ts & key & last & Hr & _)]; [|discriminate].
        injection H as ->. exists []. cbn [map]. rewrite combine_nil, !app_nil_r. cbn [length]. split; [reflexivity|]. split; [lia|]. split; [discriminate|]. auto.
  Qed.

  Lemma traf_keys hsize tf s s' o hist :
    traf_step Debug w v data hsize tf s = (s', o) -> o <> IPanic -> fields w v tf ->
    remembers hist (im_last s) -> keyed hist ->
    exists new, im_log s' = im_log s ++ new /\
      let is := infos_of v (im_tracks s) (im_moof_size s) tf in
      (length new <= length is)%nat /\ (o = IOk -> length new = length is) /\
      remembers (hist ++ combine is (map snd new)) (im_last s') /\ keyed (hist ++ combine is (map snd new)).
  Proof.
    intros E Ho [Hb Hf] Rm Kd. unfold traf_step in E. cbv zeta.
    assert (Z : forall is, o <> IOk -> s' = s -> exists new, im_log s' = im_log s ++ new /\ (length new <= length is)%nat /\ (o = IOk -> length new = length is) /\
      remembers (hist ++ combine is (map snd new)) (im_last s') /\ keyed (hist ++ combine is (map snd new))).
    { intros is No ->. exists []. cbn [map]. rewrite combine_nil, !app_nil_r. cbn [length]. split; [reflexivity|]. split; [lia|]. split; [congruence|]. auto. }
    destruct (hget (tf_id tf) (im_tracks s)) as [t|] eqn:E1; [|injection E as <- <-; apply Z; [discriminate|reflexivity]].
    destruct (find _ (mv_trak v)) as [k|] eqn:E2; [|injection E as <- <-; apply Z; [discriminate|reflexivity]].
    destruct (tf_run tf) as [run|] eqn:E3; [|injection E as <- <-; apply Z; [discriminate|reflexivity]].
    destruct (tf_time tf) as [t0|] eqn:E4; [|injection E as <- <-; apply Z; [discriminate|reflexivity]].
    destruct (run_offset Debug w (im_moof_size s) hsize (tf_base tf) (tr_off run)) as [off| |] eqn:E5.
    - destruct (offset_debug _ _ _ _ _ _ Hb E5) as [_ Hd].
      pose proof (resolved_intro v (im_tracks s) (im_moof_size s) tf t k t0 run E1 E2 E3 E4 Hd) as Er.
      destruct (Hf run t0 eq_refl eq_refl) as [Ht Hc]. unfold infos_of. rewrite Er, map_length.
      exact (samples_keys k t tf (tr_entries run) hist E2 _ _ _ _ _ E Ho Ht Hc Rm Kd).
    - injection E as <- <-. apply Z; [discriminate|reflexivity].
    - injection E as <- <-. congruence.
  Qed.

  Lemma trafs_keys hsize tfs : forall s s' o hist,
    trafs Debug w v data hsize tfs s = (s', o) -> o <> IPanic ->
    Forall (fields w v) (leading (good v (im_tracks s) (im_moof_size s)) tfs) ->
    remembers hist (im_last s) -> keyed hist ->
    exists new, im_log s' = im_log s ++ new /\
      let is := flat_map (infos_of v (im_tracks s) (im_moof_size s)) (leading (good v (im_tracks s) (im_moof_size s)) tfs) in
      (length new <= length is)%nat /\ (o = IOk -> length new = length is) /\
      remembers (hist ++ combine is (map snd new)) (im_last s') /\ keyed (hist ++ combine is (map snd new)).
  Proof.
    induction tfs as [|tf tfs IH]; intros s s' o hist E Ho Hf Rm Kd.
    - cbn in E. injection E as <- <-. exists []. rewrite app_nil_r. cbn. rewrite app_nil_r. auto.
    - cbn [trafs] in E. cbv zeta.
      destruct (traf_step Debug w v data hsize tf s) as [s1 o1] eqn:E1.
      assert (Ho1 : o1 <> IPanic). { intros ->. injection E as _ <-. congruence. }
      cbn [leading] in *. destruct (good v (im_tracks s) (im_moof_size s) tf) eqn:Eg.
      + inversion Hf as [|? ? Hf1 Hf2]; subst. cbn [flat_map].
        destruct (traf_keys hsize tf s s1 o1 hist E1 Ho1 Hf1 Rm Kd) as (new & El & Hn & Hok & Rm1 & Kd1).
        destruct (traf_debug _ _ _ _ _ _ _ _ E1 Ho1 Hf1) as [[Hg _]|[_ (new0 & _ & (K1 & K2 & K3 & K4 & K5) & _)]]; [congruence|].
        set (is := infos_of v (im_tracks s) (im_moof_size s) tf) in *.
        destruct o1 as [|e|]; [| |congruence].
        * assert (Hf2' : Forall (fields w v) (leading (good v (im_tracks s1) (im_moof_size s1)) tfs)) by (rewrite K1, K4; exact Hf2).
          destruct (IH _ _ _ _ E Ho Hf2' Rm1 Kd1) as (new' & El' & Hn' & Hok' & Rm2 & Kd2). rewrite K1, K4 in *.
          exists (new ++ new'). rewrite El', El, app_assoc. split; [reflexivity|]. rewrite !app_length. specialize (Hok eq_refl).
          split; [lia|]. split; [intro Q; rewrite (Hok' Q); lia|]. rewrite map_app, combine_both by (rewrite map_length; exact Hok).
          rewrite app_assoc. auto.
        * injection E as <- <-. exists new. split; [exact El|]. rewrite app_length. split; [lia|]. split; [discriminate|].
          rewrite combine_prefix by (rewrite map_length; lia). auto.
      + assert (Q : s1 = s /\ exists e, o1 = IErr e).
        { clear - E1 Ho1 Eg. revert E1. unfold traf_step. unfold good, resolved in Eg.
          destruct (hget _ _) as [t|]; [|intro E; injection E as <- <-; eauto].
          destruct (find _ _) as [k|]; [|intro E; injection E as <- <-; eauto].
          destruct (tf_run tf) as [run|]; [|intro E; injection E as <- <-; eauto].
          destruct (tf_time tf) as [t0|]; [|intro E; injection E as <- <-; eauto].
          unfold run_offset. destruct (tr_off run) as [d|]; [|discriminate].
          destruct (Z.ltb_spec d (Z.of_N (im_moof_size s))) as [Hd|]; [|discriminate].
          destruct (Z.ltb_spec d 0); [intro E; injection E as <- <-; eauto|].
          destruct (N.ltb_spec (Z.to_N d) (im_moof_size s)); [intro E; injection E as <- <-; eauto|lia]. }
        destruct Q as (-> & e & ->). injection E as <- <-. exists []. cbn [flat_map combine map length]. rewrite !app_nil_r.
        split; [reflexivity|]. split; [lia|]. split; [discriminate|]. auto.
  Qed.
End Keys.
