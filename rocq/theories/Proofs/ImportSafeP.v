(** When importing a fragment does not panic. *)
From Coq Require Import NArith ZArith Arith List Lia Bool.
From Coq Require Import Init.Byte Strings.Byte.
From Verif.Model Require Import Base Coding Media Import.
From Verif.Spec Require Import ImportSpec.
From Verif.Proofs Require Import ImportSampleP.
Import ListNotations.
Open Scope N_scope.

Lemma fold_del_get (ks : list trak) : forall (h : hmap N) id x,
  hget id (fold_left (fun l a => if is_soun (tk_hdlr a) then hdel (tk_id a) l else l) ks h) = Some x ->
  hget id h = Some x.
Proof.
  induction ks as [|k ks IH]; intros h id x; cbn [fold_left]; [auto|]. intro H. apply IH in H.
  destruct (is_soun (tk_hdlr k)); [|exact H]. rewrite hget_del in H. destruct (id =? tk_id k); [discriminate|exact H].
Qed.

Lemma key_audio v k flags ts us last L : is_vide (tk_hdlr k) = false ->
  forward last ((tk_id k, us) :: L) -> Z.of_N ts = (us * 1000)%Z ->
  exists last' key, sample_key v k flags ts last = Val (last', key) /\ forward last' L.
Proof.
  intros Hv [Ho Hf] Ht. unfold sample_key. rewrite Hv.
  inversion Ho as [|? ? Ho1 Ho2]; subst. inversion Hf as [|? ? Hf1 Hf2]; subst. cbn [fst snd] in *.
  assert (Hput : forward (hput (tk_id k) ts last) L).
  { split; [exact Ho2|]. rewrite Forall_forall in *. intros a Ha ns. rewrite hget_put.
    destruct (N.eqb_spec (fst a) (tk_id k)) as [E|_]; [|apply Hf2; exact Ha].
    intro En. injection En as <-. specialize (Ho1 a Ha (eq_sym E)). lia. }
  assert (Hsame : forward last L) by (split; assumption).
  destruct (hget (tk_id k) last) as [prev|] eqn:Eg; [|eauto].
  specialize (Hf1 prev eq_refl). destruct (N.ltb_spec ts prev); [lia|].
  destruct (_ <? ts - prev); eauto.
Qed.

Lemma key_video v k flags ts last L : is_vide (tk_hdlr k) = true ->
  Forall (fun a => fst a <> tk_id k) L -> forward last L ->
  exists last' key, sample_key v k flags ts last = Val (last', key) /\ forward last' L.
Proof.
  intros Hv Hn [Ho Hf]. unfold sample_key. rewrite Hv.
  destruct (video_key flags); [|eexists _, _; split; [reflexivity|split; assumption]].
  eexists _, _. split; [reflexivity|]. split; [exact Ho|].
  rewrite Forall_forall in *. intros a Ha ns. rewrite hget_put.
  destruct (N.eqb_spec (fst a) (tk_id k)) as [E|_]; [destruct (Hn a Ha E)|].
  intro H. apply fold_del_get in H. exact (Hf a Ha ns H).
Qed.

Definition audio_run v tf k t dts off es : list (N * Z) :=
  if is_vide (tk_hdlr k) then []
  else map (fun p => (tf_id tf, pl_us p)) (run_places v tf t (tk_scale k) dts off es).

Lemma samples_calm m w v k t tf data R : tk_id k = tf_id tf ->
  (is_vide (tk_hdlr k) = true -> Forall (fun a => fst a <> tk_id k) R) ->
  forall es dts off s,
  dts + total (map (dur_of v tf) es) < 2 ^ 63 ->
  (forall i e, nth_error es i = Some e ->
     calm w (tk_scale k) (Z.of_N (dts_at v tf dts es i) + cts_of e)
       (Z.of_N off + Z.of_N (before i (size_of v tf) es)) (size_of v tf e)) ->
  forward (im_last s) (audio_run v tf k t dts (Z.of_N off) es ++ R) ->
  snd (samples m w v k t tf data es dts off s) <> IPanic /\
  (forall s', samples m w v k t tf data es dts off s = (s', IOk) -> forward (im_last s') R /\ kept s s').
Proof.
  intros Hid HR. induction es as [|e es IH]; intros dts off s Hd Hc Hf.
  - cbn [samples snd]. split; [discriminate|]. intros s' E. injection E as <-.
    split; [|apply kept_refl]. unfold audio_run in Hf. destruct (is_vide (tk_hdlr k)); exact Hf.
  - cbn [map total] in Hd. cbn [samples].
    assert (Hc0 : calm w (tk_scale k) (Z.of_N dts + cts_of e) (Z.of_N off) (size_of v tf e)).
    { specialize (Hc 0%nat e eq_refl). unfold dts_at, before in Hc. cbn [firstn map total] in Hc.
      rewrite N.add_0_r, Z.add_0_r in Hc. exact Hc. }
    assert (Hd0 : dts + dur_of v tf e < 2 ^ 63) by lia.
    set (us := (1000000 * (Z.of_N dts + cts_of e) / Z.of_N (tk_scale k))%Z).
    set (L := audio_run v tf k t (dts + dur_of v tf e) (Z.of_N (off + size_of v tf e)) es ++ R).
    assert (Hkey : forall ts, Z.of_N ts = (us * 1000)%Z -> exists last' key,
      sample_key v k (flags_of v tf e) ts (im_last s) = Val (last', key) /\ forward last' L).
    { intros ts Ht. unfold audio_run in Hf. subst L. unfold audio_run.
      destruct (is_vide (tk_hdlr k)) eqn:Ev.
      - cbn [app] in *. apply key_video; auto.
      - rewrite run_places_cons in Hf. cbn [map app pl_us] in Hf. rewrite <- Hid in *. rewrite N2Z.inj_add.
        eapply key_audio; eauto. }
    destruct (sample_calm w v k t tf data m e dts off s Hd0 Hc0) as [->|(ts & key & last & Hts & Ek & ->)].
    { intros ts Ht. destruct (Hkey ts Ht) as (l & b & -> & _). discriminate. }
    { cbn [snd]. split; [discriminate|]. intros s' E. discriminate. }
    destruct (Hkey ts Hts) as (l & b & Ek' & HL). rewrite Ek in Ek'. injection Ek' as <- <-.
    destruct (IH (dts + dur_of v tf e) (off + size_of v tf e)
      (iwith_log (iwith_last s last) (im_log s ++ [(t, MFrame ts key (bytes_at data (Z.of_N off) (size_of v tf e)))])))
      as [H1 H2].
    + lia.
    + intros i e' Hi. specialize (Hc (S i) e' Hi). unfold dts_at, before in *. cbn [firstn map total] in Hc.
      rewrite <- N.add_assoc. replace (Z.of_N (off + size_of v tf e) + Z.of_N (total (map (size_of v tf) (firstn i es))))%Z
        with (Z.of_N off + Z.of_N (size_of v tf e + total (map (size_of v tf) (firstn i es))))%Z by lia.
      exact Hc.
    + exact HL.
    + split; [exact H1|]. intros s' E. destruct (H2 s' E) as [HF HK]. split; [exact HF|].
      eapply kept_trans; [|exact HK]. unfold kept. cbn. auto 6.
Qed.

Lemma audio_ids v tracks msize hsize tfs a : In a (flat_map (audio_of v tracks msize hsize) tfs) ->
  exists k, find (fun k => tk_id k =? fst a) (mv_trak v) = Some k /\ is_vide (tk_hdlr k) = false.
Proof.
  intro H. apply in_flat_map in H. destruct H as (tf & _ & H). unfold audio_of in H.
  destruct (resolved v tracks msize tf) as [[[[t k] t0] run]|] eqn:E; [|contradiction].
  apply resolved_inv in E. destruct E as (_ & E & _).
  destruct (tk_hdlr k) eqn:Eh; [contradiction|..]; apply in_map_iff in H; destruct H as (p & <- & _);
    exists k; cbn [fst]; rewrite Eh; auto.
Qed.

Lemma offset_calm m w msize hsize base off : (forall n, base = Some n -> n < 2 ^ w) ->
  (forall d, off = Some d -> (Z.of_N (msize + hsize) <= d)%Z) ->
  (run_from msize hsize base off < 2 ^ Z.of_N w)%Z ->
  exists o, run_offset m w msize hsize base off = OVal o /\ Z.of_N o = run_from msize hsize base off.
Proof.
  intros Hb Hd Hw. unfold run_offset, run_from in *.
  assert (Eb : opt_or base 0 mod 2 ^ w = pick [base]).
  { destruct base as [n|]; cbn [opt_or pick flat_map app]; [apply N.mod_small; auto|]. apply N.mod_0_l, N.pow_nonzero. lia. }
  rewrite Eb. destruct off as [d|].
  - specialize (Hd d eq_refl). destruct (Z.ltb_spec d 0); [lia|]. destruct (N.ltb_spec (Z.to_N d) msize); [lia|].
    rewrite usub_fits by lia. rewrite uadd_fits.
    + eexists. split; [reflexivity|]. lia.
    + apply N2Z.inj_lt. rewrite N2Z.inj_pow. change (Z.of_N 2) with 2%Z. lia.
  - eexists. split; [reflexivity|]. lia.
Qed.

Lemma trafs_calm m w v data hsize tfs : forall s,
  let lead := leading (good v (im_tracks s) (im_moof_size s)) tfs in
  Forall (fields w v) lead ->
  Forall (calm_traf w v (im_tracks s) (im_moof_size s) hsize) lead ->
  forward (im_last s) (audio_times v (im_tracks s) (im_moof_size s) hsize tfs) ->
  snd (trafs m w v data hsize tfs s) <> IPanic.
Proof.
  induction tfs as [|tf tfs IH]; intros s lead Hf Hc Hw; [discriminate|].
  subst lead. unfold audio_times in Hw. cbn [leading trafs] in *.
  destruct (good v (im_tracks s) (im_moof_size s) tf) eqn:Eg.
  - inversion Hf as [|? ? Hf1 Hf2]; subst. inversion Hc as [|? ? Hc1 Hc2]; subst. cbn [flat_map] in Hw.
    unfold good in Eg. destruct (resolved _ _ _ tf) as [[[[t k] t0] run]|] eqn:Er; [|discriminate].
    destruct (resolved_inv _ _ _ _ _ _ _ _ Er) as (E1 & E2 & E3 & E4 & E5).
    destruct Hf1 as [Hb Hf1]. destruct (Hf1 run t0 E3 E4) as [Ht Hcts].
    destruct (Hc1 _ _ _ _ Er) as (Ho & Hw0 & Hcalm).
    destruct (offset_calm m w _ _ _ _ Hb Ho Hw0) as (off & Eo & Hoff).
    assert (Hid : tk_id k = tf_id tf).
    { apply find_some in E2. destruct E2 as [_ E2]. apply N.eqb_eq in E2. exact E2. }
    set (R := flat_map (audio_of v (im_tracks s) (im_moof_size s) hsize) (leading (good v (im_tracks s) (im_moof_size s)) tfs)) in *.
    assert (HR : is_vide (tk_hdlr k) = true -> Forall (fun a => fst a <> tk_id k) R).
    { intro Hv. apply Forall_forall. intros a Ha E. apply audio_ids in Ha. destruct Ha as (k' & Ek' & Hv').
      rewrite E, Hid, E2 in Ek'. injection Ek' as <-. congruence. }
    destruct (samples_calm m w v k t tf data R Hid HR (tr_entries run) t0 off s Ht) as [H1 H2].
    + rewrite Hoff. exact Hcalm.
    + rewrite Hoff. unfold audio_of in Hw. rewrite Er in Hw. unfold audio_run.
      unfold places_of in Hw. rewrite Er in Hw. destruct (tk_hdlr k); exact Hw.
    + unfold traf_step. rewrite E1, E2, E3, E4, Eo.
      destruct (samples m w v k t tf data (tr_entries run) t0 off s) as [s1 [|e|]] eqn:Es; [|cbn; discriminate|exact H1].
      destruct (H2 s1 eq_refl) as [HF (K1 & K2 & K3 & K4 & K5)].
      apply IH; rewrite K1, K4; assumption.
  - unfold good, resolved in Eg. unfold traf_step.
    destruct (hget _ _) as [t|]; [|discriminate]. destruct (find _ _) as [k|]; [|discriminate].
    destruct (tf_run tf) as [run|]; [|discriminate]. destruct (tf_time tf) as [t0|]; [|discriminate].
    unfold run_offset. destruct (tr_off run) as [d|]; [|discriminate].
    destruct (Z.ltb_spec d (Z.of_N (im_moof_size s))) as [Hd|]; [|discriminate].
    destruct (Z.ltb_spec d 0); [discriminate|].
    destruct (N.ltb_spec (Z.to_N d) (im_moof_size s)); [discriminate|lia].
Qed.

Theorem extract_safe m w data hsize s : safe w hsize s -> snd (extract m w data hsize s) <> IPanic.
Proof.
  intro H. unfold extract. destruct (im_moov s) as [v|] eqn:Ev; [|discriminate].
  destruct (im_moof s) as [f|] eqn:Ef; [|discriminate].
  destruct (H v f Ev Ef) as (H1 & H2 & H3). apply trafs_calm; assumption.
Qed.

Theorem extract_exact m w data hsize s s' o v f :
  im_moov s = Some v -> im_moof s = Some f ->
  Forall (fields w v) (leading (good v (im_tracks s) (im_moof_size s)) f) ->
  snd (extract Debug w data hsize s) <> IPanic ->
  extract m w data hsize s = (s', o) ->
  exists new, im_log s' = im_log s ++ new /\
    Forall2 (written_for data) (firstn (length new) (places (run_from (im_moof_size s) hsize) v (im_tracks s) (im_moof_size s) f)) new /\
    ends v (im_tracks s) (im_moof_size s) (places (run_from (im_moof_size s) hsize) v (im_tracks s) (im_moof_size s) f) data f (length new) o.
Proof.
  intros Ev Ef Hf Hp E. rewrite (extract_agree m) in E by exact Hp.
  rewrite E in Hp. cbn [snd] in Hp. unfold extract in E. rewrite Ev, Ef in E.
  destruct (trafs_debug _ _ _ _ _ _ _ _ E Hp) as (new & H1 & _ & _ & H2 & H3); [exact Hf|].
  exists new. auto.
Qed.

(** ** The other boxes *)
Lemma init_traks_out ks : forall s, snd (init_traks ks s) <> IPanic.
Proof.
  induction ks as [|k ks IH]; intros s; [discriminate|]. cbn [init_traks].
  destruct (tk_hdlr k); try discriminate; destruct (tk_codec k); try discriminate; apply IH.
Qed.
Theorem process_others m w a n s : (forall data, a <> AMdat data) -> snd (process m w a n s) <> IPanic.
Proof.
  intro H. destruct a as [|v|f|data|]; cbn [process]; try discriminate.
  - unfold init. generalize (init_traks_out (mv_trak v) s).
    destruct (init_traks _ _) as [s1 [| |]]; auto; discriminate.
  - destruct (im_moof s); discriminate.
  - destruct (H data eq_refl).
Qed.

(** ** ISO placement *)
Lemma plain_rule pos msize hsize tf run : plain tf -> tf_run tf = Some run ->
  run_from msize hsize (tf_base tf) (tr_off run) = iso_from pos msize hsize (tf_base tf) (tr_off run).
Proof.
  intros [Hb Ho] Er. specialize (Ho run Er). rewrite Hb. unfold run_from, iso_from.
  destruct (tr_off run) as [d|]; [|congruence]. cbn [pick flat_map app]. lia.
Qed.
Lemma plain_places pos v tracks msize hsize f : Forall plain (leading (good v tracks msize) f) ->
  places (run_from msize hsize) v tracks msize f = places (iso_from pos msize hsize) v tracks msize f.
Proof.
  unfold places. induction 1 as [|tf l Hp _ IH]; [reflexivity|]. cbn [flat_map]. f_equal; [|exact IH].
  unfold places_of. destruct (resolved v tracks msize tf) as [[[[t k] t0] run]|] eqn:E; [|reflexivity].
  apply resolved_inv in E. destruct E as (_ & _ & E & _). rewrite (plain_rule pos) by assumption. reflexivity.
Qed.
Theorem extract_iso m w data hsize pos s s' o v f :
  im_moov s = Some v -> im_moof s = Some f ->
  let lead := leading (good v (im_tracks s) (im_moof_size s)) f in
  let P := places (iso_from pos (im_moof_size s) hsize) v (im_tracks s) (im_moof_size s) f in
  Forall (fields w v) lead -> Forall plain lead ->
  snd (extract Debug w data hsize s) <> IPanic ->
  extract m w data hsize s = (s', o) ->
  exists new, im_log s' = im_log s ++ new /\
    Forall2 (written_for data) (firstn (length new) P) new /\
    ends v (im_tracks s) (im_moof_size s) P data f (length new) o.
Proof.
  intros Ev Ef lead P Hf Hp Hn E. destruct (extract_exact _ _ _ _ _ _ _ _ _ Ev Ef Hf Hn E) as (new & H).
  exists new. subst P. rewrite <- plain_places by exact Hp. exact H.
Qed.
