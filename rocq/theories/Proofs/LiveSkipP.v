(** When a viewer gives up the rest of a group. *)
From Coq Require Import NArith ZArith List Bool Lia Arith.
From Coq Require Import Init.Byte Strings.Byte.
From Coq Require Import ZifyBool ZifyNat ZifyN.
From Verif.Model Require Import Base Coding Message ErrorCode Stream Frame FrameSys TrackSys Media Publisher Transfer Net Live.
From Verif.Model Require MediaRead.
From Verif.Spec Require Import TrackSpec MediaSpec TransferSpec NetSpec LiveSpec.
From Verif.Spec Require MediaReadSpec.
From Verif.Proofs Require Import BaseP TableP TrackP TransferP RelayP NetP NetSysP NetStepP NetTopP MediaP LiveWriteP LiveP LiveWaitP.
From Verif.Proofs Require MediaReadP LiveReadP.
Import ListNotations.
Open Scope nat_scope.

(** * Finished groups are whole *)

Definition done (gs : list (list mframe)) (j n : nat) : Prop := S j < length gs /\ exists g, nth_error gs j = Some g /\ length g = n.
Definition full0 (n : net) (gs : list (list mframe)) : Prop :=
  forall j h, nth_error (groups0 n) j = Some h -> rg_closed h = Some Finished -> done gs j (length (rg_frames h)).

Lemma add_media_old gs f j : S j < length gs -> nth_error (add_media gs f) j = nth_error gs j.
Proof.
  intros L. destruct gs as [|l pre _] using rev_ind; [cbn in L; lia|]. rewrite app_length in L. cbn in L. destruct (mf_key f) eqn:K.
  - rewrite add_media_key by exact K. rewrite (nth_error_app1 (pre ++ [l])) by (rewrite app_length; cbn; lia). reflexivity.
  - rewrite add_media_delta by exact K. rewrite !nth_error_app1 by lia. reflexivity.
Qed.
Lemma done_add gs f j n : done gs j n -> done (add_media gs f) j n.
Proof. intros (L & g & E & N). pose proof (add_media_length gs f). split; [lia|]. exists g. rewrite add_media_old by exact L. auto. Qed.
Lemma full0_add n gs f : full0 n gs -> full0 n (add_media gs f).
Proof. intros F j h E C. apply done_add. exact (F j h E C). Qed.
Lemma full0_same n n' gs : groups0 n' = groups0 n -> full0 n gs -> full0 n' gs.
Proof. unfold full0. intros ->. auto. Qed.

Lemma fill_length w o h h' : fill w o h = Some h' -> rg_closed h' = Some Finished -> length (rg_frames h') = length (rg_frames h).
Proof.
  unfold fill. destruct o as [z|i c|i|i e|e]; intros F C.
  - destruct (rg_closed h); [discriminate|]. injection F as <-. discriminate C.
  - destruct (nth_error _ _); [|discriminate]. destruct (fill_frame _ _ _); [|discriminate]. injection F as <-. cbn. apply set_nth_length.
  - destruct (nth_error _ _); [|discriminate]. destruct (fill_frame _ _ _); [|discriminate]. injection F as <-. cbn. apply set_nth_length.
  - destruct (nth_error _ _); [|discriminate]. destruct (fill_frame _ _ _); [|discriminate]. injection F as <-. cbn. apply set_nth_length.
  - destruct (rg_closed h); [discriminate|]. injection F as <-. reflexivity.
Qed.

Lemma full0_fill m w n j o n' x gs : 0 < length (nt_groups n) -> nstep m w n (NFill j o) = (n', x) -> full0 n gs ->
  (o = GEnd Finished -> forall h, nth_error (groups0 n) j = Some h -> done gs j (length (rg_frames h))) -> full0 n' gs.
Proof.
  intros L St F O. destruct (fill_step _ _ _ _ _ _ _ L St) as [(-> & _)|(h & h' & E & Fi & G & _ & _)]; [exact F|].
  intros i y Ei C. rewrite G in Ei. destruct (Nat.eq_dec j i) as [->|N].
  - rewrite nth_error_set_eq in Ei by (apply nth_error_Some; congruence). injection Ei as <-. rewrite (fill_length _ _ _ _ Fi C).
    destruct o as [z|f c|f|f e|[|e]]; try (exact (F i h E (fill_closed _ _ _ _ Fi ltac:(discriminate) C))). exact (O eq_refl h E).
  - rewrite nth_error_set_ne in Ei by exact N. exact (F i y Ei C).
Qed.
Lemma full0_use m w n o n' x gs : nstep m w n (NUse 0 o) = (n', x) -> full0 n gs -> full0 n' gs.
Proof.
  intros St F. destruct (use_step _ _ _ _ _ _ St) as [(-> & _)|(t & t' & y & _ & _ & _ & G & _)]; [exact F|]. eapply full0_same; eauto.
Qed.
Lemma full0_group m w n n' x gs : 0 < length (nt_groups n) -> nstep m w n NGroup = (n', x) -> full0 n gs -> full0 n' gs.
Proof.
  intros L St F. destruct (group_step _ _ _ _ _ L St) as (G & _ & _). intros j h E C. rewrite G in E.
  destruct (Nat.lt_ge_cases j (length (groups0 n))) as [Lj|Lj].
  - rewrite nth_error_app1 in E by exact Lj. exact (F j h E C).
  - rewrite nth_error_app2 in E by exact Lj. destruct (j - length (groups0 n)) as [|[|d]]; try discriminate. injection E as <-. discriminate C.
Qed.

(** The group about to be finished is whole. *)
Definition ready (hs : list rgroup) (gs : list (list mframe)) (job : option (stage * mframe)) : Prop :=
  forall f a h, job = Some (SFinish, f) -> hs = a ++ [h] -> done gs (length a) (length (rg_frames h)).

Lemma full0_section m w n H gs cur j f n' tr : (62 <= w)%N -> ninv w n H -> strong n H gs cur (Some (j, f)) ->
  ready (groups0 n) gs (Some (j, f)) ->
  nrun m w n (section n cur j f) = (n', tr) -> full0 n gs -> full0 n' gs.
Proof.
  intros W K (_ & SS) Rd R F. destruct (ninv_pos _ _ _ K) as (Lg & Lt).
  destruct j; cbn [section nrun] in R; cbn [state] in SS.
  - destruct SS as (_ & _ & a & h & pre & Eh & Eg & Lp & ->). destruct (nstep m w n _) as [n1 x1] eqn:St in R. injection R as <- _.
    eapply full0_fill; eauto. intros _ y Ey. rewrite Eh, nth_error_snoc in Ey. injection Ey as <-. exact (Rd f a h eq_refl Eh).
  - destruct (nstep m w n _) as [n1 x1] eqn:St in R. injection R as <- _. eapply full0_use; eauto.
  - destruct (nstep m w n NGroup) as [n1 x1] eqn:St1 in R. destruct (nstep m w n1 _) as [n2 x2] eqn:St2 in R. injection R as <- _.
    eapply full0_use; eauto. eapply full0_group; eauto.
  - destruct (nstep m w n _) as [n1 x1] eqn:St in R. injection R as <- _. eapply full0_fill; eauto. discriminate.
  - destruct (nstep m w n _) as [n1 x1] eqn:St in R. injection R as <- _. eapply full0_fill; eauto. discriminate.
  - destruct (nstep m w n _) as [n1 x1] eqn:St in R. injection R as <- _. eapply full0_fill; eauto. discriminate.
  - destruct (nstep m w n _) as [n1 x1] eqn:St in R. injection R as <- _. eapply full0_fill; eauto. discriminate.
Qed.
Lemma full0_gone m w s n gs : 0 < length (nt_groups n) -> full0 n gs -> full0 (lv_net (gone m w s n)) gs.
Proof.
  intros L F. unfold gone. cbn [lv_net]. destruct (lv_cur s) as [g|]; cbn [app nrun].
  - destruct (nstep m w n (NFill g _)) as [n1 x1] eqn:E1. destruct (nstep m w n1 _) as [n2 x2] eqn:E2. cbn [fst].
    eapply full0_use; eauto. eapply full0_fill; eauto. discriminate.
  - destruct (nstep m w n _) as [n2 x2] eqn:E2. cbn [fst]. eapply full0_use; eauto.
Qed.
Lemma full0_outside m w n H o n' x gs : ninv w n H -> outside o = true -> nstep m w n o = (n', x) -> full0 n gs -> full0 n' gs.
Proof.
  intros K O St F. destruct (ninv_pos _ _ _ K) as (Lg & Lt). destruct (outside_same _ _ _ _ _ _ O Lg Lt St) as ([S1 _] & _). eapply full0_same; eauto.
Qed.

Definition yinv (s : live) (tr : list levent) : Prop :=
  full0 (lv_net s) (media_groups (lwritten tr)) /\ ready (groups0 (lv_net s)) (media_groups (lwritten tr)) (lv_job s).

Lemma lwritten_one e : lwritten [e] = [] \/ exists f, e = (LWrite f, LUnit) /\ lwritten [e] = [f].
Proof. destruct e as [[] []]; cbn; eauto. Qed.
Lemma media_grows tr e (P : list (list mframe) -> Prop) : (forall gs f, P gs -> P (add_media gs f)) ->
  P (media_groups (lwritten tr)) -> P (media_groups (lwritten (tr ++ [e]))).
Proof.
  intros S Q. rewrite lwritten_snoc. destruct (lwritten_one e) as [->|(f & _ & ->)]; [rewrite app_nil_r; exact Q|]. rewrite media_groups_snoc. auto.
Qed.

Lemma yinv_step m w s o s' x tr H : (62 <= w)%N -> linv w s tr H -> lstep m w s o = (s', x) -> yinv s tr -> yinv s' (tr ++ [(o, x)]).
Proof.
  intros W L St (F & Rd). destruct (ninv_pos _ _ _ (li_net _ _ _ _ L)) as (Lg & Lt).
  assert (F' : forall n, full0 n (media_groups (lwritten tr)) -> full0 n (media_groups (lwritten (tr ++ [(o, x)])))).
  { intros n Fn. apply (media_grows tr (o, x) (full0 n)); [intros; apply full0_add; assumption|exact Fn]. }
  assert (Rd' : forall hs j, ready hs (media_groups (lwritten tr)) j -> ready hs (media_groups (lwritten (tr ++ [(o, x)]))) j).
  { intros hs j Q. apply (media_grows tr (o, x) (fun gs => ready hs gs j)); [|exact Q]. intros gs f R g a h E1 E2. apply done_add. eauto. }
  assert (Same : s' = s -> yinv s' (tr ++ [(o, x)])) by (intros ->; split; auto).
  assert (Rn : forall hs gs, ready hs gs None) by (intros hs gs f a h E; discriminate).
  destruct o as [f| | |o|i p|v d|v fuel order]; cbn [lstep] in St.
  - destruct (lv_job s) eqn:Ej; [injection St as <- <-; apply Same; reflexivity|]. destruct (lv_gone s) eqn:Eg; [injection St as <- <-; apply Same; reflexivity|].
    destruct (media_header (mf_ts f)) as [hd|] eqn:Em.
    + injection St as <- <-. split; [apply F'; exact F|]. cbn [with_job lv_job lv_net]. intros f0 a h E1 E2.
      pose proof (li_strong _ _ _ _ L Eg) as (_ & SS). rewrite Ej in SS. cbn [state] in SS. destruct SS as (_ & SS).
      destruct (lv_cur s) as [c|]; [|injection E1; discriminate]. destruct (mf_key f) eqn:Kf; [|discriminate].
      destruct SS as (a' & h' & pre & g & Ha & Hg & La & _ & Lf). rewrite Ha in E2. apply app_inj_tail in E2. destruct E2 as (<- & <-).
      rewrite lwritten_snoc. cbn [lwritten flat_map app]. rewrite media_groups_snoc, Hg, add_media_key by exact Kf. rewrite La. split.
      * rewrite !app_length. cbn. lia.
      * exists g. split; [|auto]. rewrite nth_error_app1 by (rewrite app_length; cbn; lia). apply nth_error_snoc.
    + injection St as <- <-. split; [apply F', full0_gone; assumption|]. apply Rd'. apply Rn.
  - destruct (lv_job s) as [[j f]|] eqn:Ej; [|injection St as <- <-; apply Same; reflexivity].
    assert (Eg : lv_gone s = false). { destruct (lv_gone s) eqn:Eg; [|reflexivity]. pose proof (li_gone _ _ _ _ L Eg). congruence. }
    pose proof (li_strong _ _ _ _ L Eg) as Sg. rewrite Ej in Sg.
    destruct (nrun m w (lv_net s) _) as [n ntr] eqn:R.
    assert (Fn : full0 n (media_groups (lwritten tr))) by (eapply full0_section; eauto; apply L).
    assert (Ln : 0 < length (nt_groups n)).
    { destruct (section_ok m w _ H _ _ _ _ _ _ W (li_net _ _ _ _ L) (li_weak _ _ _ _ L) Sg R) as (H1 & A & _). apply (ninv_pos _ _ _ A). }
    destruct (forallb _ ntr).
    + destruct (after _ _ _ _) as [cur job] eqn:Af. injection St as <- <-. split; [apply F'; exact Fn|]. cbn [with_job lv_job lv_net].
      assert (N : forall g, job <> Some (SFinish, g)). { intros g. destruct j; cbn in Af; injection Af as <- <-; try discriminate. }
      intros g a h E. exfalso. exact (N _ E).
    + injection St as <- <-. split; [apply F', full0_gone; assumption|]. apply Rd', Rn.
  - destruct (lv_job s) eqn:Ej; [injection St as <- <-; apply Same; reflexivity|]. destruct (lv_gone s); [injection St as <- <-; apply Same; reflexivity|].
    injection St as <- <-. split; [apply F', full0_gone; assumption|]. apply Rd', Rn.
  - destruct (Live.allowed s o) eqn:Al; [|injection St as <- <-; apply Same; reflexivity].
    destruct (allowed_outside s o Al) as (O & _). destruct (nstep m w (lv_net s) o) as [n y] eqn:Sn. injection St as <- <-. cbn [fst].
    destruct (outside_same _ _ _ _ _ _ O Lg Lt Sn) as ([S1 _] & _).
    split; [apply F'; eapply full0_same; eauto|]. apply Rd'. cbn. rewrite S1. exact Rd.
  - destruct (nth_error (nt_tracks (lv_net s)) i) as [t|] eqn:Et; [|injection St as <- <-; apply Same; reflexivity].
    destruct (nstep m w (lv_net s) (NUse i (TConsume p))) as [n y] eqn:Sn.
    assert (O : outside (NUse i (TConsume p)) = true) by (destruct i; reflexivity).
    destruct (outside_same _ _ _ _ _ _ O Lg Lt Sn) as ([S1 _] & _).
    assert (Q : lv_net s' = n /\ lv_job s' = lv_job s).
    { destruct (no_did y) as [|[? [? []]] []]; injection St as <- <-; auto. }
    destruct Q as (Q1 & Q2). split; rewrite Q1; [apply F'; eapply full0_same; eauto|]. rewrite Q2, S1. apply Rd'. exact Rd.
  - destruct (nth_error (lv_views s) v) as [vw|] eqn:Ev; [|injection St as <- <-; apply Same; reflexivity].
    destruct (perform (lv_net s) vw [] (MediaRead.RLatency d)) as [vw' y] eqn:Pf. injection St as <- <-. split; [apply F'; exact F|apply Rd'; exact Rd].
  - destruct (nth_error (lv_views s) v) as [vw|] eqn:Ev; [|injection St as <- <-; apply Same; reflexivity].
    destruct (view_poll m w (lv_net s) vw fuel order) as [n [vw' y]] eqn:Vp. injection St as <- <-.
    assert (S1 : groups0 n = groups0 (lv_net s)).
    { unfold view_poll in Vp. destruct (current (lv_net s) vw); [destruct (perform _ _ _ _); injection Vp as <- _; reflexivity|].
      destruct (nstep m w (lv_net s) (NUse (vw_node vw) (TNext (vw_cons vw)))) as [n1 z] eqn:Sn.
      assert (O : outside (NUse (vw_node vw) (TNext (vw_cons vw))) = true) by (destruct (vw_node vw); reflexivity).
      destruct (outside_same _ _ _ _ _ _ O Lg Lt Sn) as ([S1 _] & _).
      destruct (next_answer z) as [[a gl]|]; [destruct (perform _ _ _ _)|]; injection Vp as <- _; exact S1. }
    split; [apply F'; eapply full0_same; [exact S1|exact F]|]. cbn. rewrite S1. apply Rd'. exact Rd.
Qed.

Lemma yinv_run m w ops : (62 <= w)%N -> Forall lmodest ops -> yinv (fst (lrun m w live_new ops)) (snd (lrun m w live_new ops)).
Proof.
  intros W. induction ops as [|o ops IH] using rev_ind; intros M.
  - split; [intros [|j] h; discriminate|intros f a h; discriminate].
  - apply Forall_app in M. destruct M as (M1 & M2). specialize (IH M1). destruct (linv_run m w ops W M1) as (H & L).
    rewrite lrun_snoc in *. destruct (lrun m w live_new ops) as [s tr]. destruct (lstep m w s o) as [s' x] eqn:St. cbn [fst snd] in *.
    eapply yinv_step; eauto.
Qed.

(** * One poll of the reader *)

Notation RD := MediaRead.Rd.
Inductive effect (r : MediaRead.reader) (cur : MediaRead.fans) (bufs : list (nat * list MediaRead.fans)) : MediaRead.reader -> MediaRead.rout -> Prop :=
| ef_buffered g fr rest : MediaRead.rd_cur r = Some g -> MediaRead.rg_buf g = fr :: rest ->
    effect r cur bufs (RD (Some (MediaRead.with_buf g rest)) (MediaRead.rd_pending r) (MediaRead.rf_ts fr) (MediaRead.rd_lat r)) (MediaRead.RGot fr)
| ef_frame g ts g' : MediaRead.rd_cur r = Some g -> MediaRead.rg_buf g = [] -> cur = MediaRead.FFrame ts ->
    MediaRead.rg_seq g' = MediaRead.rg_seq g -> MediaRead.rg_buf g' = [] ->
    effect r cur bufs (RD (Some g') (MediaRead.rd_pending r) ts (MediaRead.rd_lat r))
      (MediaRead.RGot (MediaRead.RFrame (MediaRead.rg_seq g) (MediaRead.rg_index g) ts))
| ef_end g : MediaRead.rd_cur r = Some g -> MediaRead.rg_buf g = [] -> cur = MediaRead.FEnd ->
    effect r cur bufs (MediaRead.pop r) MediaRead.RMove
| ef_skip i env g ts env' g' pending x : In (i, env) bufs -> nth_error (MediaRead.rd_pending r) i = Some g -> MediaRead.rg_index g = 0 ->
    env = MediaRead.FFrame ts :: env' -> (MediaRead.rd_max r + MediaRead.rd_lat r <= ts)%N ->
    MediaRead.rg_seq g' = MediaRead.rg_seq g -> MediaRead.rg_buf g' = [MediaRead.RFrame (MediaRead.rg_seq g) 0 ts] ->
    effect r cur bufs (RD (Some g') pending (MediaRead.rd_max r) (MediaRead.rd_lat r)) (MediaRead.RSkip x)
| ef_none r' x : MediaRead.rd_cur r' = MediaRead.rd_cur r \/ (MediaRead.rd_cur r = None /\ exists q, MediaRead.rd_cur r' = Some (MediaRead.rg_new q)) ->
    MediaRead.rd_max r' = MediaRead.rd_max r -> MediaRead.rd_lat r' = MediaRead.rd_lat r -> (forall f, x <> MediaRead.RGot f) ->
    effect r cur bufs r' x.

Lemma ready_is fuel cutoff g env ts g' : MediaReadP.fresh g -> MediaRead.buffer_until fuel cutoff g env = (MediaRead.BReady ts, g') ->
  exists env', env = MediaRead.FFrame ts :: env' /\ (cutoff <= ts)%N /\ MediaRead.rg_seq g' = MediaRead.rg_seq g /\
    MediaRead.rg_buf g' = [MediaRead.RFrame (MediaRead.rg_seq g) 0 ts].
Proof.
  intros (B & M & I) H. destruct fuel as [|fuel]; [discriminate|]. cbn [MediaRead.buffer_until] in H. rewrite M, B in H.
  destruct env as [|[t| | |] env]; try discriminate. rewrite LiveReadP.rg_frame_eq in H. destruct fuel as [|fuel]; [discriminate|].
  rewrite M, B, I in H. cbn [MediaRead.buffer_until MediaRead.with_buf MediaRead.rg_max MediaRead.rg_seq MediaRead.rg_index MediaRead.rg_buf app] in H.
  rewrite N.max_0_l in H. destruct (cutoff <=? t)%N eqn:L.
  - injection H as <- <-. exists env. apply N.leb_le in L. auto.
  - exfalso. assert (Hs : MediaRead.buffer_until (S fuel) cutoff
      (MediaRead.RG (MediaRead.rg_seq g) 1 [MediaRead.RFrame (MediaRead.rg_seq g) 0 t] (Some t)) env = (MediaRead.BReady ts, g')).
    { cbn [MediaRead.buffer_until MediaRead.rg_max MediaRead.rg_buf]. rewrite L. exact H. }
    assert (Q : fst (MediaRead.buffer_until (S fuel) cutoff
      (MediaRead.RG (MediaRead.rg_seq g) 1 [MediaRead.RFrame (MediaRead.rg_seq g) 0 t] (Some t)) env) = MediaRead.BLoop).
    { apply MediaReadP.buffer_spins; [|discriminate]. unfold MediaReadP.reached. cbn. apply N.leb_gt in L. lia. }
    rewrite Hs in Q. discriminate.
Qed.

Lemma buffering_effect fuel cutoff bufs0 : forall bufs r r' x, incl bufs bufs0 -> (forall g, In g (MediaRead.rd_pending r) -> MediaReadP.fresh g) ->
  cutoff = (MediaRead.rd_max r + MediaRead.rd_lat r)%N ->
  MediaRead.buffering fuel cutoff r bufs = (r', x) -> x <> MediaRead.RHang -> forall cur, effect r cur bufs0 r' x.
Proof.
  induction bufs as [|[i env] bufs IH]; intros r r' x Inc F C H NH cur; cbn [MediaRead.buffering] in H.
  - injection H as <- <-. apply ef_none; auto; discriminate.
  - assert (Inc' : incl bufs bufs0) by (intros y Hy; apply Inc; right; exact Hy).
    destruct (nth_error (MediaRead.rd_pending r) i) as [g|] eqn:Hi; [|eapply IH; eauto].
    assert (Fg : MediaReadP.fresh g) by (apply F; eapply nth_error_In; eauto).
    destruct (MediaRead.buffer_until fuel cutoff g env) as [b g'] eqn:Eb. destruct b as [ts| |].
    + injection H as <- <-. cbn [MediaRead.rd_pending MediaRead.rd_cur MediaRead.rd_max MediaRead.rd_lat].
      assert (E : skipn i (set_nth i g' (MediaRead.rd_pending r)) = g' :: skipn (S i) (MediaRead.rd_pending r)).
      { clear - Hi. revert i Hi. induction (MediaRead.rd_pending r) as [|y l IH]; intros [|i] Hi; cbn in *; try discriminate; auto. }
      rewrite E. unfold MediaRead.pop. cbn [MediaRead.rd_pending MediaRead.rd_max MediaRead.rd_lat].
      destruct (ready_is _ _ _ _ _ _ Fg Eb) as (env' & Ee & Lc & Q & B). subst cutoff.
      eapply ef_skip; eauto; [apply Inc; left; reflexivity|apply Fg].
    + rewrite (MediaReadP.fresh_wait _ _ _ _ _ Fg Eb) in H. rewrite set_nth_same in H by exact Hi. destruct r as [rc rp rm rl]. cbn in H. eapply IH; eauto.
    + injection H as <- <-. congruence.
Qed.

Lemma rstep_effect fuel cur next bufs r r' x : (forall g, In g (MediaRead.rd_pending r) -> MediaReadP.fresh g) ->
  MediaRead.rstep r (MediaRead.RPoll fuel cur next bufs) = (r', x) -> x <> MediaRead.RHang -> effect r cur bufs r' x.
Proof.
  intros F H NH. cbn [MediaRead.rstep] in H.
  destruct (MediaRead.duration_max <? MediaRead.rd_max r + MediaRead.rd_lat r)%N; [injection H as <- <-; apply ef_none; auto; discriminate|].
  set (cutoff := (MediaRead.rd_max r + MediaRead.rd_lat r)%N) in H.
  assert (Rest : MediaRead.select_rest fuel cutoff r next bufs = (r', x) -> effect r cur bufs r' x).
  { clear H. intros H. unfold MediaRead.select_rest in H.
    assert (B : (let (s, x) := MediaRead.buffering fuel cutoff r bufs in
       match x, MediaRead.rd_cur s, next, MediaRead.rd_pending s with MediaRead.RWait, None, MediaRead.NEnd, [] => (s, MediaRead.REnd) | _, _, _, _ => (s, x) end) = (r', x) ->
       effect r cur bufs r' x).
    { clear H. intros H. destruct (MediaRead.buffering fuel cutoff r bufs) as [s1 x1] eqn:E.
      assert (r' = s1 /\ (x = x1 \/ (x = MediaRead.REnd /\ x1 = MediaRead.RWait))) as [-> Ex].
      { destruct x1; try (injection H as <- <-; auto; fail). destruct (MediaRead.rd_cur s1); [injection H as <- <-; auto|].
        destruct next; try (injection H as <- <-; auto; fail). destruct (MediaRead.rd_pending s1); injection H as <- <-; auto. }
      assert (E1 : effect r cur bufs s1 x1).
      { eapply (buffering_effect fuel cutoff bufs bufs); eauto; [apply incl_refl|]. destruct Ex as [<-|[_ ->]]; [exact NH|discriminate]. }
      destruct Ex as [->|[-> ->]]; [exact E1|]. inversion E1; subst. apply ef_none; auto; discriminate. }
    destruct next as [seq| | |]; auto.
    - destruct (MediaRead.rd_cur r) as [c|] eqn:Ec; [destruct (seq <? MediaRead.rg_seq c)%N|]; injection H as <- <-.
      + apply ef_none; auto; discriminate.
      + apply ef_none; cbn; auto; discriminate.
      + apply ef_none; cbn; auto; [right; eauto|discriminate].
    - injection H as <- <-. apply ef_none; auto; discriminate. }
  destruct (MediaRead.rd_cur r) as [g|] eqn:Ec; auto. destruct (MediaRead.rg_buf g) as [|f rest] eqn:Eb.
  - destruct cur as [ts| | |]; auto.
    + rewrite LiveReadP.rg_frame_eq in H. injection H as <- <-. eapply ef_frame; eauto.
    + injection H as <- <-. eapply ef_end; eauto.
    + injection H as <- <-. apply ef_none; auto; discriminate.
  - injection H as <- <-. eapply ef_buffered; eauto.
Qed.

(** * One viewer *)

(** Its latency, and the lowest since the last frame shown. *)
Definition low_step (v : nat) (p : N * N) (e : levent) : N * N :=
  match e with
  | (LLatency v' d, LUnit) => if Nat.eqb v v' then (d, N.min (snd p) d) else p
  | (LPoll v' _ _, LShown _ _ _) => if Nat.eqb v v' then (fst p, fst p) else p
  | _ => p
  end.
Definition lows (v : nat) (tr : list levent) : N * N := fold_left (low_step v) tr (0, 0)%N.
Lemma lows_snoc v tr e : lows v (tr ++ [e]) = low_step v (lows v tr) e.
Proof. unfold lows. rewrite fold_left_app. reflexivity. Qed.
Lemma latency_snoc v tr e : latency v (tr ++ [e]) = match e with (LLatency v' d, LUnit) => if Nat.eqb v v' then d else latency v tr | _ => latency v tr end.
Proof. unfold latency. rewrite fold_left_app. reflexivity. Qed.
Lemma lows_latency v tr : fst (lows v tr) = latency v tr.
Proof.
  induction tr as [|e tr IH] using rev_ind; [reflexivity|]. rewrite lows_snoc, latency_snoc. unfold low_step.
  destruct e as [[] []]; auto; destruct (Nat.eqb v v0); auto.
Qed.
Lemma lows_le v tr : (snd (lows v tr) <= latency v tr)%N.
Proof.
  rewrite <- lows_latency. induction tr as [|e tr IH] using rev_ind; [reflexivity|]. rewrite lows_snoc. unfold low_step.
  destruct e as [[] []]; auto; destruct (Nat.eqb v v0); auto; cbn; lia.
Qed.
Lemma lows_since v L a e b x : shown v [e] = [x] -> shown v b = [] -> (L <= latency v a)%N -> Forall (asks_for v L) b ->
  (L <= snd (lows v (a ++ e :: b)))%N.
Proof.
  intros E. induction b as [|z b IH] using rev_ind; intros S La F.
  - change (a ++ [e]) with (a ++ [e]). rewrite lows_snoc. unfold low_step. destruct e as [[] []]; try discriminate E. cbn in E. destruct (Nat.eqb v v0); [|discriminate].
    cbn [snd]. rewrite lows_latency. exact La.
  - rewrite shown_snoc in S. apply app_eq_nil in S. destruct S as (S1 & S2). apply Forall_app in F. destruct F as (F1 & F2). apply Forall_inv in F2.
    specialize (IH S1 La F1). change (a ++ e :: b ++ [z]) with (a ++ (e :: b) ++ [z]). rewrite app_assoc, lows_snoc. unfold low_step.
    destruct z as [[] []]; auto.
    + destruct (Nat.eqb_spec v v0) as [->|]; [|exact IH]. cbn [snd]. specialize (F2 eq_refl). apply N.min_glb; assumption.
    + cbn in S2. destruct (Nat.eqb v v0); [discriminate|exact IH].
Qed.

Definition truth (gs : list (list mframe)) (fr : MediaRead.rframe) : Prop :=
  exists mf, is_frame gs (MediaRead.rf_seq fr, MediaRead.rf_idx fr, mf) /\ mf_ts mf = MediaRead.rf_ts fr.
Lemma is_frame_same gs p f f' : is_frame gs (p, f) -> is_frame gs (p, f') -> f = f'.
Proof. intros (g & y & A & B & C) (g' & y' & A' & B' & C'). cbn in *. rewrite A in A'. injection A' as <-. rewrite B in B'. injection B' as <-. congruence. Qed.
Lemma truth_add gs f fr : truth gs fr -> truth (add_media gs f) fr.
Proof. intros (mf & A & B). exists mf. split; [apply is_frame_add; exact A|exact B]. Qed.

Definition left_ok (gs : list (list mframe)) (low : N) (cur : option MediaRead.rgroup) (x : N * nat * mframe) : Prop :=
  done gs (N.to_nat (fst (fst x))) (S (snd (fst x))) \/
  match cur with
  | None => False
  | Some g => MediaRead.rg_seq g = fst (fst x) \/ exists fr rest, MediaRead.rg_buf g = fr :: rest /\ (mf_ts (snd x) + low <= MediaRead.rf_ts fr)%N
  end.

Record pinv (gs : list (list mframe)) (tr : list levent) (v : nat) (r : MediaRead.reader) : Prop := {
  p_lat : MediaRead.rd_lat r = latency v tr;
  p_max : MediaRead.rd_max r = match last_opt (shown v tr) with Some x => mf_ts (snd x) | None => 0%N end;
  p_buf : forall g fr, MediaRead.rd_cur r = Some g -> In fr (MediaRead.rg_buf g) -> truth gs fr;
  p_cur : forall x, last_opt (shown v tr) = Some x -> left_ok gs (snd (lows v tr)) (MediaRead.rd_cur r) x }.

Lemma left_add gs f low cur x : left_ok gs low cur x -> left_ok (add_media gs f) low cur x.
Proof. intros [D|C]; [left; apply done_add; exact D|right; exact C]. Qed.
Lemma pinv_add gs f tr v r : pinv gs tr v r -> pinv (add_media gs f) tr v r.
Proof. intros []. constructor; eauto using truth_add, left_add. Qed.
Lemma pinv_quiet gs tr v r e : pinv gs tr v r -> shown v [e] = [] -> low_step v (lows v tr) e = lows v tr -> pinv gs (tr ++ [e]) v r.
Proof.
  intros [A B C D] S Lw. assert (La : latency v (tr ++ [e]) = latency v tr) by (rewrite <- !lows_latency, lows_snoc, Lw; reflexivity).
  constructor; rewrite ?shown_snoc, ?S, ?app_nil_r, ?La, ?lows_snoc, ?Lw; auto.
Qed.

(** What the reader is told of the frames is true. *)
Lemma told w n H gs v v' seen res q h k f : ninv w n H -> weak n H gs -> ranged gs -> vinv H gs v' seen res ->
  incl (vw_groups v) (vw_groups v') -> vw_node v' = vw_node v -> content n v q = Some h -> frame_at h k = Some f -> is_frame gs (q, k, f).
Proof.
  intros K Wk R V I E Ec Ef. destruct (content_in _ _ _ _ Ec) as (g & Ig & <- & Eh).
  eapply shows; eauto. apply (proj2 (proj2 (given_ok w n H (vw_node v) (vw_cons v') K))). rewrite <- E. apply (vi_in _ _ _ _ _ V). apply I. exact Ig.
Qed.
Lemma answer_ts h k ts : answer h k = MediaRead.FFrame ts -> exists f, frame_at h k = Some f /\ mf_ts f = ts.
Proof.
  unfold answer, frame_at. destruct (payload_at h k) as [[b|]|e| |]; try discriminate. destruct (media_decode k b) as [f|]; [|discriminate].
  intros [= <-]. eauto.
Qed.
Lemma current_is n v g a : current n v = Some a -> MediaRead.rd_cur (vw_reader v) = Some g ->
  a <> MediaRead.FWait -> answer_of n v (MediaRead.rg_seq g) (MediaRead.rg_index g) = a.
Proof.
  unfold current. intros E Eg N. destruct (_ <? _)%N in E; [congruence|]. rewrite Eg in E.
  destruct (MediaRead.rg_buf g), (answer_of n v (MediaRead.rg_seq g) (MediaRead.rg_index g)); congruence.
Qed.

Lemma ended_full w n H gs v g seen res : ninv w n H -> weak n H gs -> vinv H gs v seen res -> full0 n gs ->
  answer_of n v (MediaRead.rg_seq g) (MediaRead.rg_index g) = MediaRead.FEnd ->
  exists h, content n v (MediaRead.rg_seq g) = Some h /\ length (rg_frames h) <= MediaRead.rg_index g /\
    done gs (N.to_nat (MediaRead.rg_seq g)) (length (rg_frames h)).
Proof.
  intros K (W1 & W2) V F A. unfold answer_of in A. destruct (content n v (MediaRead.rg_seq g)) as [h|] eqn:Eh; [|discriminate]. exists h. split; [reflexivity|].
  assert (C : rg_closed h = Some Finished /\ length (rg_frames h) <= MediaRead.rg_index g).
  { unfold answer, payload_at in A. destruct (nth_error (rg_frames h) (MediaRead.rg_index g)) as [[size st]|] eqn:En.
    - destruct (fs_closed st) as [[|e]|]; try discriminate. destruct (media_decode _ _); discriminate.
    - destruct (rg_closed h) as [[|e]|]; try discriminate. split; [reflexivity|]. apply nth_error_None. exact En. }
  destruct C as (C & Le). split; [exact Le|].
  destruct (content_in _ _ _ _ Eh) as (y & Iy & <- & Ey).
  assert (Ia : In y (accepted (H (vw_node v)))).
  { apply (proj2 (proj2 (given_ok w n H (vw_node v) (vw_cons v) K))). apply (vi_in _ _ _ _ _ V). exact Iy. }
  destruct (vw_node v) as [|i].
  - rewrite (W2 y Ia), Nnat.Nat2N.id. exact (F _ h Ey C).
  - destruct (co_copy _ _ _ (ni_cont _ _ _ K) (S i) y h ltac:(lia) Ia Ey) as (y0 & h0 & I0 & Q & E0 & _ & Fi).
    destruct (Fi C) as ((C0 & _) & Fe). rewrite <- Q, (W2 y0 I0), Nnat.Nat2N.id.
    assert (Ln : length (rg_frames h) = length (rg_frames h0)).
    { apply (f_equal (@length _)) in Fe. unfold frames_of in Fe. rewrite !map_length in Fe. exact Fe. }
    rewrite Ln. exact (F _ h0 E0 C0).
Qed.

(** Where the reader stands in the current group. *)
Lemma stands H gs v seen res g x : vinv H gs v seen res -> ~ In LHang res -> MediaRead.rd_cur (vw_reader v) = Some g ->
  last_opt seen = Some x -> MediaRead.rg_seq g = fst (fst x) -> MediaRead.rg_buf g = [] -> MediaRead.rg_index g = S (snd (fst x)).
Proof.
  intros V NH Eg El Eq Eb. destruct (vi_run _ _ _ _ _ V) as (rops & rtr & R & A & P & Hg).
  assert (Inv : MediaReadP.rinv (vw_reader v) rtr).
  { eapply MediaReadP.rinv_run; [exact R| |auto]. rewrite A. apply increasing_seqs_map. exact (vi_inc _ _ _ _ _ V). }
  pose proof (MediaReadP.ri_cur _ _ Inv) as C. rewrite Eg in C. destruct C as ((k & (C1 & _) & C2) & _). rewrite Eb in C1. cbn in C1.
  unfold MediaReadP.last_is in C2.
  destruct seen as [|y l _] using rev_ind; [discriminate|]. rewrite last_opt_snoc in El. injection El as ->.
  assert (Er : exists f l', rev (MediaReadSpec.played rtr) = f :: l' /\ (MediaRead.rf_seq f, MediaRead.rf_idx f) = fst x).
  { destruct (MediaReadSpec.played rtr) as [|f pl _] using rev_ind; [destruct l; discriminate P|].
    rewrite !map_app in P. cbn in P. apply app_inj_tail in P. destruct P as (_ & P). exists f, (rev pl). rewrite rev_app_distr. auto. }
  destruct Er as (f & l' & Er & Ef). rewrite Er in C2. destruct x as [[q kk] mf]. cbn in *. injection Ef as E1 E2. lia.
Qed.

Definition verdict (gs : list (list mframe)) (tr : list levent) (v : nat) (y : lout) : Prop :=
  forall q k f q' k' f', last_opt (shown v tr) = Some (q, k, f) -> y = LShown q' k' f' -> q <> q' ->
  done gs (N.to_nat q) (S k) \/ (mf_ts f + snd (lows v tr) <= mf_ts f')%N.

Lemma result_got vw fr y : result vw (MediaRead.RGot fr) = y -> y <> LBad -> exists mf, y = LShown (MediaRead.rf_seq fr) (MediaRead.rf_idx fr) mf.
Proof. cbn. destruct (recall _ _ _) as [mf|]; intros <- N; [eauto|congruence]. Qed.
Lemma result_other vw x y : result vw x = y -> (forall f, x <> MediaRead.RGot f) -> forall q k f, y <> LShown q k f.
Proof. intros <- N q k f. destruct x; cbn; try discriminate. exfalso. eapply N. reflexivity. Qed.

Lemma effect_pinv gs tr v fuel order r cur bufs r' x vw y : pinv gs tr v r -> effect r cur bufs r' x -> result vw x = y -> y <> LBad ->
  Forall (is_frame gs) (shown v tr) -> (forall q k f, y = LShown q k f -> is_frame gs (q, k, f)) ->
  (forall g ts, MediaRead.rd_cur r = Some g -> MediaRead.rg_buf g = [] -> cur = MediaRead.FFrame ts ->
     truth gs (MediaRead.RFrame (MediaRead.rg_seq g) (MediaRead.rg_index g) ts)) ->
  (forall g z, MediaRead.rd_cur r = Some g -> MediaRead.rg_buf g = [] -> cur = MediaRead.FEnd -> last_opt (shown v tr) = Some z ->
     MediaRead.rg_seq g = fst (fst z) -> done gs (N.to_nat (fst (fst z))) (S (snd (fst z)))) ->
  (forall i env g ts env', In (i, env) bufs -> nth_error (MediaRead.rd_pending r) i = Some g -> MediaRead.rg_index g = 0 ->
     env = MediaRead.FFrame ts :: env' -> truth gs (MediaRead.RFrame (MediaRead.rg_seq g) 0 ts)) ->
  (forall g, In g (MediaRead.rd_pending r) -> MediaReadP.fresh g) ->
  (forall g fr, MediaRead.rd_cur r = Some g -> In fr (MediaRead.rg_buf g) -> MediaRead.rf_seq fr = MediaRead.rg_seq g) ->
  pinv gs (tr ++ [(LPoll v fuel order, y)]) v r' /\ verdict gs tr v y.
Proof.
  intros [P1 P2 P3 P4] E Y NB Fs Fy Fc Fe Fb Fr Fq.
  assert (La : latency v (tr ++ [(LPoll v fuel order, y)]) = latency v tr) by (rewrite latency_snoc; reflexivity).
  assert (Got : forall fr mf, y = LShown (MediaRead.rf_seq fr) (MediaRead.rf_idx fr) mf -> truth gs fr -> mf_ts mf = MediaRead.rf_ts fr).
  { intros fr mf Ey (mf' & A & B). rewrite <- B. f_equal. eapply is_frame_same; [apply Fy; exact Ey|exact A]. }
  assert (Sh : forall q k f, y = LShown q k f -> shown v (tr ++ [(LPoll v fuel order, y)]) = shown v tr ++ [(q, k, f)]).
  { intros q k f ->. rewrite shown_snoc. cbn. rewrite Nat.eqb_refl. reflexivity. }
  assert (Sn : (forall f, x <> MediaRead.RGot f) -> shown v (tr ++ [(LPoll v fuel order, y)]) = shown v tr /\ lows v (tr ++ [(LPoll v fuel order, y)]) = lows v tr /\ verdict gs tr v y).
  { intros N. pose proof (result_other _ _ _ Y N) as Ny. rewrite shown_snoc, lows_snoc. cbn [shown flat_map low_step]. split; [|split].
    - destruct y; rewrite ?app_nil_r; try reflexivity. exfalso. eapply Ny. reflexivity.
    - destruct y; try reflexivity. exfalso. eapply Ny. reflexivity.
    - intros q k f q' k' f' _ Ey. exfalso. eapply Ny. exact Ey. }
  destruct E as [g fr rest Eg Eb|g ts g' Eg Eb Ec Es Eb'|g Eg Eb Ec|i env g ts env' g' pending z Ei Eg Ex Ee Lt Es Eb|r' x Cu Em El N].
  - destruct (result_got _ _ _ Y NB) as (mf & Ey). pose proof (P3 g fr Eg ltac:(rewrite Eb; left; reflexivity)) as Tr. pose proof (Got fr mf Ey Tr) as Ts.
    split.
    + constructor; rewrite ?La, ?(Sh _ _ _ Ey), ?last_opt_snoc; cbn [MediaRead.rd_lat MediaRead.rd_max MediaRead.rd_cur snd]; auto.
      * intros g1 fr1 [= <-] I1. apply (P3 g fr1 Eg). rewrite Eb. right. exact I1.
      * intros z [= <-]. right. left. cbn. symmetry. apply (Fq g fr Eg). rewrite Eb. left. reflexivity.
    + intros q k f q' k' f' Hl Ey' Nq. rewrite Ey in Ey'. injection Ey' as <- <- <-.
      destruct (P4 _ Hl) as [D|C]; [left; exact D|]. rewrite Eg in C. destruct C as [C|(fr' & rest' & Eb'' & Le)].
      * exfalso. apply Nq. cbn in C. rewrite <- C. symmetry. apply (Fq g fr Eg). rewrite Eb. left. reflexivity.
      * rewrite Eb in Eb''. injection Eb'' as <- <-. right. rewrite Ts. exact Le.
  - destruct (result_got _ _ _ Y NB) as (mf & Ey). pose proof (Got _ mf Ey (Fc g ts Eg Eb Ec)) as Ts. cbn in Ey, Ts.
    split.
    + constructor; rewrite ?La, ?(Sh _ _ _ Ey), ?last_opt_snoc; cbn [MediaRead.rd_lat MediaRead.rd_max MediaRead.rd_cur snd]; auto.
      * intros g1 fr1 [= <-] I1. rewrite Eb' in I1. destruct I1.
      * intros z [= <-]. right. left. exact Es.
    + intros q k f q' k' f' Hl Ey' Nq. rewrite Ey in Ey'. injection Ey' as <- <- <-.
      destruct (P4 _ Hl) as [D|C]; [left; exact D|]. rewrite Eg in C. destruct C as [C|(fr' & rest' & Eb'' & Le)].
      * exfalso. apply Nq. cbn in C. congruence.
      * rewrite Eb in Eb''. discriminate.
  - destruct (Sn ltac:(discriminate)) as (S1 & S2 & S3). split; [|exact S3]. constructor; rewrite ?La, ?S1, ?S2.
    + unfold MediaRead.pop. destruct (MediaRead.rd_pending r); exact P1.
    + unfold MediaRead.pop. destruct (MediaRead.rd_pending r); exact P2.
    + intros g1 fr1 E1 I1. unfold MediaRead.pop in E1. destruct (MediaRead.rd_pending r) as [|p ps]; [discriminate|]. injection E1 as <-.
      destruct (Fr p (or_introl eq_refl)) as (B0 & _). rewrite B0 in I1. destruct I1.
    + intros z Hz. left. destruct (P4 z Hz) as [D|C]; [exact D|]. rewrite Eg in C. destruct C as [C|(fr' & rest' & Eb'' & Le)]; [|congruence].
      eapply Fe; eauto.
  - destruct (Sn ltac:(discriminate)) as (S1 & S2 & S3). split; [|exact S3]. constructor; rewrite ?La, ?S1, ?S2; cbn [MediaRead.rd_lat MediaRead.rd_max MediaRead.rd_cur]; auto.
    + intros g1 fr1 [= <-] I1. rewrite Eb in I1. destruct I1 as [<-|[]]. eapply Fb; eauto.
    + intros u Hu. right. right. exists (MediaRead.RFrame (MediaRead.rg_seq g) 0 ts), []. split; [exact Eb|]. cbn. rewrite P2, Hu, P1 in Lt. pose proof (lows_le v tr). lia.
  - destruct (Sn N) as (S1 & S2 & S3). split; [|exact S3]. constructor; rewrite ?La, ?S1, ?S2, ?Em, ?El; auto.
    + intros g1 fr1 E1 I1. destruct Cu as [Cu|(Cn & q & Cu)]; rewrite Cu in E1; [eauto|]. injection E1 as <-. destruct I1.
    + intros u Hu. destruct (P4 u Hu) as [D|C]; [left; exact D|]. right. destruct Cu as [Cu|(Cn & q & Cu)]; [rewrite Cu; exact C|]. rewrite Cn in C. destruct C.
Qed.

Lemma bufs_first n v order i env g ts env' :
  In (i, env) (flat_map (fun i => match nth_error (MediaRead.rd_pending (vw_reader v)) i with
                                  | Some g => [(i, answers n v g)]
                                  | None => []
                                  end) (nodup Nat.eq_dec order)) ->
  nth_error (MediaRead.rd_pending (vw_reader v)) i = Some g -> MediaRead.rg_index g = 0 -> env = MediaRead.FFrame ts :: env' ->
  exists h f, content n v (MediaRead.rg_seq g) = Some h /\ frame_at h 0 = Some f /\ mf_ts f = ts.
Proof.
  intros J E I0 ->. apply in_flat_map in J. destruct J as (j & _ & J). destruct (nth_error (MediaRead.rd_pending (vw_reader v)) j) as [g'|] eqn:Ej; [|destruct J].
  destruct J as [J|[]]. injection J as <- Ea. rewrite Ej in E. injection E as ->. unfold answers in Ea.
  destruct (content n v (MediaRead.rg_seq g)) as [h|]; [|discriminate]. rewrite I0, Nat.sub_0_r in Ea. cbn [seq map] in Ea. injection Ea as Ea _.
  destruct (answer_ts _ _ _ Ea) as (f & A & B). eauto.
Qed.

Lemma poll_pinv m w n H gs v vw fuel order n' vw' y tr : (62 <= w)%N ->
  ninv w n H -> weak n H gs -> ranged gs -> vinv H gs vw (shown v tr) (results v tr) -> full0 n gs -> ~ In LHang (results v tr ++ [y]) ->
  view_poll m w n vw fuel order = (n', (vw', y)) -> pinv gs tr v (vw_reader vw) ->
  pinv gs (tr ++ [(LPoll v fuel order, y)]) v (vw_reader vw') /\ verdict gs tr v y.
Proof.
  intros W K Wk R V F NH P Pi. assert (NH0 : ~ In LHang (results v tr)) by (intros J; apply NH, in_or_app; auto).
  assert (Yh : y <> LHang) by (intros ->; apply NH, in_or_app; right; left; reflexivity).
  destruct (poll_full m w n H gs vw fuel order n' vw' y _ _ W K Wk R V P) as (H' & K' & G & Wk' & _ & V' & Bad).
  assert (Fy : forall q k f, y = LShown q k f -> is_frame gs (q, k, f)).
  { intros q k f ->. pose proof (vi_seen _ _ _ _ _ V') as S. apply Forall_app in S. destruct S as (_ & S). exact (Forall_inv S). }
  destruct (vi_run _ _ _ _ _ V) as (rops & rtr & Rr & Ra & Rp & Rh).
  assert (Fr : forall g, In g (MediaRead.rd_pending (vw_reader vw)) -> MediaReadP.fresh g) by (eapply MediaReadP.pending_fresh; eauto).
  assert (Fq : forall g fr, MediaRead.rd_cur (vw_reader vw) = Some g -> In fr (MediaRead.rg_buf g) -> MediaRead.rf_seq fr = MediaRead.rg_seq g).
  { intros g fr Eg I0. assert (Inv : MediaReadP.rinv (vw_reader vw) rtr).
    { eapply MediaReadP.rinv_run; [exact Rr| |auto]. rewrite Ra. apply increasing_seqs_map. exact (vi_inc _ _ _ _ _ V). }
    pose proof (MediaReadP.ri_cur _ _ Inv) as C. rewrite Eg in C. destruct C as ((k & (_ & C1) & _) & _). apply In_nth_error in I0. destruct I0 as (i & I0). apply (C1 i fr I0). }
  pose proof (vi_seen _ _ _ _ _ V) as Fs.
  unfold view_poll in P. destruct (current n vw) as [a|] eqn:Ec.
  - assert (NB : y <> LBad) by (intros B; destruct (Bad B) as (_ & B' & _); discriminate).
    destruct (perform n vw [] _) as [v1 y1] eqn:Pf. injection P as <- <- <-.
    destruct (perform_view _ _ _ _ _ _ Pf) as (A1 & A2 & A3 & x & A4 & _). rewrite app_nil_r in A3.
    assert (Y : exists u, result u x = y1).
    { unfold perform in Pf. cbn [vw_reader] in Pf. rewrite A4 in Pf. injection Pf as _ <-. eauto. }
    destruct Y as (u & Y).
    assert (Ef : effect (vw_reader vw) a [] (vw_reader v1) x) by (eapply rstep_effect; eauto; intros ->; cbn in Y; congruence).
    eapply effect_pinv; eauto.
    + intros g ts Eg Eb ->. pose proof (current_is _ _ _ _ Ec Eg ltac:(discriminate)) as An. unfold answer_of in An.
      destruct (content n vw (MediaRead.rg_seq g)) as [h|] eqn:Eh; [|discriminate]. destruct (answer_ts _ _ _ An) as (f & B1 & B2).
      exists f. split; [|exact B2]. cbn. eapply (told w n H gs vw vw); eauto. apply incl_refl.
    + intros g z Eg Eb -> Hz Eq. pose proof (current_is _ _ _ _ Ec Eg ltac:(discriminate)) as An.
      destruct (ended_full _ _ _ _ _ _ _ _ K Wk V F An) as (h & _ & Le & D).
      pose proof (stands _ _ _ _ _ _ _ V NH0 Eg Hz Eq Eb) as St. rewrite St in Le.
      assert (Iz : is_frame gs z).
      { rewrite Forall_forall in Fs. apply Fs. destruct (shown v tr) as [|b l _] using rev_ind; [discriminate|]. rewrite last_opt_snoc in Hz. injection Hz as ->. apply in_or_app. right. left. reflexivity. }
      destruct Iz as (gg & ff & B1 & B2 & _). rewrite <- Eq in B1. destruct D as (D1 & g1 & D2 & D3). rewrite B1 in D2. injection D2 as <-.
      assert (Lk : snd (fst z) < length gg) by (apply nth_error_Some; congruence).
      rewrite <- Eq. split; [exact D1|]. exists gg. split; [exact B1|]. lia.
    + intros i env g ts env' [].
  - destruct (nstep m w n (NUse (vw_node vw) (TNext (vw_cons vw)))) as [n1 x0] eqn:St. cbn [snd] in Bad.
    destruct (next_answer x0) as [[a gl]|] eqn:Na.
    2: { injection P as <- <- <-. split; [|intros q k f q' k' f' _ E; discriminate E].
         apply pinv_quiet; auto. }
    assert (NB : y <> LBad) by (intros B; destruct (Bad B) as (_ & _ & B'); discriminate).
    destruct (perform n1 vw gl _) as [v1 y1] eqn:Pf. injection P as <- <- <-.
    destruct (perform_view _ _ _ _ _ _ Pf) as (A1 & A2 & A3 & x & A4 & _).
    assert (Y : exists u, result u x = y1).
    { unfold perform in Pf. cbn [vw_reader] in Pf. rewrite A4 in Pf. injection Pf as _ <-. eauto. }
    destruct Y as (u & Y).
    assert (Ef : effect (vw_reader vw) MediaRead.FWait _ (vw_reader v1) x) by (eapply rstep_effect; [exact Fr|exact A4|intros ->; cbn in Y; congruence]).
    eapply effect_pinv; [exact Pi|exact Ef|exact Y|exact NB|exact Fs|exact Fy|discriminate|discriminate| |exact Fr|exact Fq].
    intros i env g ts env' I1 I2 I3 I4. destruct (bufs_first n1 vw order i env g ts env' I1 I2 I3 I4) as (h & f & B1 & B2 & B3).
    exists f. split; [|exact B3]. cbn. eapply (told w n1 H' gs vw v1); eauto. rewrite A3. apply incl_appl, incl_refl.
Qed.

(** * Everything *)

Definition zinv (s : live) (tr : list levent) : Prop :=
  (forall v vw, nth_error (lv_views s) v = Some vw -> ~ In LHang (results v tr) -> pinv (media_groups (lwritten tr)) tr v (vw_reader vw)) /\
  (forall v, length (lv_views s) <= v -> latency v tr = 0%N).
(** Everything given up so far was given up for good reason. *)
Definition all_fair (tr : list levent) : Prop := forall v a e b e' c q k f q' k' f', tr = a ++ e :: b ++ e' :: c ->
  shown v [e] = [(q, k, f)] -> shown v b = [] -> shown v [e'] = [(q', k', f')] -> ~ In LHang (results v tr) -> q <> q' ->
  done (media_groups (lwritten tr)) (N.to_nat q) (S k) \/ (mf_ts f + snd (lows v (a ++ e :: b)) <= mf_ts f')%N.

Lemma zinv_quiet s s' tr e : zinv s tr -> no_poll e -> (forall v d, fst e <> LLatency v d) -> lv_views s' = lv_views s -> zinv s' (tr ++ [e]).
Proof.
  intros (A & B) Np Nl Ev. split.
  - intros v vw E NH. rewrite Ev in E. destruct (no_poll_shown e v Np) as (S1 & S2). rewrite results_snoc, S2, app_nil_r in NH.
    apply pinv_quiet; [|exact S1|].
    + apply (media_grows tr e (fun gs => pinv gs tr v (vw_reader vw))); [intros; apply pinv_add; assumption|]. exact (A v vw E NH).
    + unfold low_step. destruct e as [[] []]; cbn in *; try reflexivity; try destruct Np; exfalso; eapply Nl; reflexivity.
  - intros v L. rewrite Ev in L. rewrite latency_snoc, (B v L). destruct e as [[] []]; cbn in *; try reflexivity; exfalso; eapply Nl; reflexivity.
Qed.

Lemma quiet_latency v tr e : (forall d, e <> (LLatency v d, LUnit)) -> latency v (tr ++ [e]) = latency v tr.
Proof.
  intros N. rewrite latency_snoc. destruct e as [[] []]; auto. destruct (Nat.eqb_spec v v0) as [->|]; [|reflexivity]. exfalso. eapply N. reflexivity.
Qed.

Lemma zinv_step m w s o s' x tr H : (62 <= w)%N -> linv w s tr H -> yinv s tr -> lstep m w s o = (s', x) -> zinv s tr ->
  zinv s' (tr ++ [(o, x)]) /\
  (forall v fuel order, o = LPoll v fuel order -> ~ In LHang (results v (tr ++ [(o, x)])) -> verdict (media_groups (lwritten tr)) tr v x).
Proof.
  intros W L (F & _) St Z. pose proof L as [L1 L2 L3 L4 L5 L6 L7]. pose proof Z as (Z1 & Z2).
  assert (Qu : no_poll (o, x) -> (forall v d, o <> LLatency v d) -> lv_views s' = lv_views s -> zinv s' (tr ++ [(o, x)]) /\
    (forall v fuel order, o = LPoll v fuel order -> ~ In LHang (results v (tr ++ [(o, x)])) -> verdict (media_groups (lwritten tr)) tr v x)).
  { intros A B C. split; [apply (zinv_quiet s); auto|]. intros v fuel order ->. destruct A. }
  destruct o as [f| | |o|i p|v d|v fuel order]; cbn [lstep] in St.
  - apply Qu; [exact I|discriminate|]. destruct (lv_job s); [injection St as <- _; reflexivity|]. destruct (lv_gone s); [injection St as <- _; reflexivity|].
    destruct (media_header (mf_ts f)); injection St as <- _; reflexivity.
  - apply Qu; [exact I|discriminate|]. destruct (lv_job s) as [[j f]|]; [|injection St as <- _; reflexivity].
    destruct (nrun m w (lv_net s) _) as [n ntr]. destruct (forallb _ ntr); [destruct (after _ _ _ _)|]; injection St as <- _; reflexivity.
  - apply Qu; [exact I|discriminate|]. destruct (lv_job s); [injection St as <- _; reflexivity|]. destruct (lv_gone s); injection St as <- _; reflexivity.
  - apply Qu; [exact I|discriminate|]. destruct (Live.allowed s o); injection St as <- _; reflexivity.
  - split; [|discriminate]. destruct (nth_error (nt_tracks (lv_net s)) i) as [t|]; [|apply Qu; [exact I|discriminate|injection St as <- _; reflexivity]].
    destruct (nstep m w (lv_net s) (NUse i (TConsume p))) as [n y].
    assert (Cs : lv_views s' = lv_views s \/ lv_views s' = lv_views s ++ [View i (length (ts_cons t)) [] MediaRead.rd_new []]).
    { destruct (no_did y) as [|[? [? []]] []]; injection St as <- <-; auto. }
    destruct Cs as [Cs|Cs]; [apply Qu; [exact I|discriminate|exact Cs]|].
    assert (Q : forall u, shown u [(LView i p, x)] = [] /\ results u [(LView i p, x)] = []) by (intros u; split; reflexivity).
    split.
    + intros u vw Eu NH. rewrite Cs in Eu. destruct (Nat.lt_ge_cases u (length (lv_views s))) as [Lu|Lu].
      * rewrite nth_error_app1 in Eu by exact Lu.
        destruct (zinv_quiet s s tr (LView i p, x) Z I ltac:(discriminate) eq_refl) as (Q1 & _). exact (Q1 u vw Eu NH).
      * rewrite nth_error_app2 in Eu by exact Lu. destruct (u - length (lv_views s)) as [|[|e]]; try discriminate. injection Eu as <-. cbn [vw_reader].
        assert (Sh : shown u (tr ++ [(LView i p, x)]) = []) by (rewrite shown_snoc, (proj1 (Q u)), (L7 u Lu); reflexivity).
        constructor; rewrite ?Sh; cbn; try discriminate; [|reflexivity]. rewrite quiet_latency by discriminate. rewrite (Z2 u Lu). reflexivity.
    + intros u Lu. rewrite Cs, app_length in Lu. rewrite quiet_latency by discriminate. apply Z2. lia.
  - split; [|discriminate]. destruct (nth_error (lv_views s) v) as [vw|] eqn:Ev.
    2: { injection St as <- <-. split.
         - intros u vw Eu NH. destruct (no_poll_shown (LLatency v d, LBad) u I) as (S1 & S2). rewrite results_snoc, S2, app_nil_r in NH.
           rewrite lwritten_snoc. cbn [lwritten flat_map]. rewrite app_nil_r. apply pinv_quiet; auto.
         - intros u Lu. rewrite quiet_latency by discriminate. auto. }
    destruct (perform (lv_net s) vw [] (MediaRead.RLatency d)) as [vw' y] eqn:Pf. unfold perform in Pf. cbn in Pf. injection Pf as <- <-. injection St as <- <-.
    assert (Lv : v < length (lv_views s)) by (apply nth_error_Some; congruence).
    assert (Lw : forall u, u <> v -> low_step u (lows u tr) (LLatency v d, LUnit) = lows u tr).
    { intros u N. cbn. destruct (Nat.eqb_spec u v); [contradiction|reflexivity]. }
    split; cbn [with_views lv_views].
    + intros u vu Eu NH. destruct (no_poll_shown (LLatency v d, LUnit) u I) as (S1 & S2). rewrite results_snoc, S2, app_nil_r in NH.
      rewrite lwritten_snoc. cbn [lwritten flat_map]. rewrite app_nil_r. destruct (Nat.eq_dec u v) as [->|N].
      * rewrite nth_error_set_eq in Eu by exact Lv. injection Eu as <-. cbn [vw_reader]. destruct (Z1 v vw Ev NH) as [A B C D].
        constructor; rewrite ?shown_snoc, ?S1, ?app_nil_r; cbn [MediaRead.rd_lat MediaRead.rd_max MediaRead.rd_cur]; auto.
        -- rewrite latency_snoc, Nat.eqb_refl. reflexivity.
        -- intros z Hz. rewrite lows_snoc. cbn [low_step]. rewrite Nat.eqb_refl. cbn [snd]. destruct (D z Hz) as [D1|D1]; [left; exact D1|right].
           destruct (MediaRead.rd_cur (vw_reader vw)) as [g|]; [|exact D1]. destruct D1 as [D1|(fr & rest & E1 & E2)]; [left; exact D1|right].
           exists fr, rest. split; [exact E1|]. lia.
      * rewrite nth_error_set_ne in Eu by congruence. apply pinv_quiet; auto.
    + intros u Lu. rewrite set_nth_length in Lu. rewrite latency_snoc. destruct (Nat.eqb_spec u v); [subst; lia|]. auto.
  - destruct (nth_error (lv_views s) v) as [vw|] eqn:Ev.
    2: { injection St as <- <-. split.
         - split.
           + intros u vw Eu NH. rewrite results_snoc in NH. rewrite lwritten_snoc. cbn [lwritten flat_map]. rewrite app_nil_r. apply pinv_quiet; auto.
             apply Z1; auto. intros J. apply NH, in_or_app. auto.
           + intros u Lu. rewrite quiet_latency by discriminate. auto.
         - intros u fu ord _ _ q k f q' k' f' _ E. discriminate E. }
    destruct (view_poll m w (lv_net s) vw fuel order) as [n [vw' y]] eqn:Vp. injection St as <- <-.
    assert (Lv : v < length (lv_views s)) by (apply nth_error_Some; congruence).
    assert (Main : ~ In LHang (results v (tr ++ [(LPoll v fuel order, y)])) ->
      pinv (media_groups (lwritten tr)) (tr ++ [(LPoll v fuel order, y)]) v (vw_reader vw') /\ verdict (media_groups (lwritten tr)) tr v y).
    { intros NH. rewrite results_snoc in NH. cbn [results flat_map] in NH. rewrite Nat.eqb_refl in NH. cbn [app] in NH.
      eapply poll_pinv; eauto. apply Z1; [exact Ev|]. intros J. apply NH, in_or_app. auto. }
    split.
    + split; cbn [with_views lv_views].
      * intros u vu Eu NH. rewrite lwritten_snoc. cbn [lwritten flat_map]. rewrite app_nil_r. destruct (Nat.eq_dec u v) as [->|N].
        -- rewrite nth_error_set_eq in Eu by exact Lv. injection Eu as <-. apply Main. exact NH.
        -- rewrite nth_error_set_ne in Eu by congruence.
           assert (Ne : Nat.eqb u v = false) by (apply Nat.eqb_neq; exact N).
           assert (S1 : shown u [(LPoll v fuel order, y)] = []) by (cbn; rewrite Ne; destruct y; reflexivity).
           assert (S2 : results u [(LPoll v fuel order, y)] = []) by (cbn; rewrite Ne; reflexivity).
           rewrite results_snoc, S2, app_nil_r in NH. apply pinv_quiet; auto. cbn. rewrite Ne. destruct y; reflexivity.
      * intros u Lu. rewrite set_nth_length in Lu. rewrite quiet_latency by discriminate. auto.
    + intros u fu ord [= <- _ _] NH. apply Main. exact NH.
Qed.

Lemma fair_run m w ops : (62 <= w)%N -> Forall lmodest ops ->
  zinv (fst (lrun m w live_new ops)) (snd (lrun m w live_new ops)) /\ all_fair (snd (lrun m w live_new ops)).
Proof.
  intros W. induction ops as [|o ops IH] using rev_ind; intros M.
  - split; [split; [intros [|v] vw; discriminate|reflexivity]|]. intros v a e b e' c q k f q' k' f' E. destruct a; discriminate.
  - apply Forall_app in M. destruct M as (M1 & M2). specialize (IH M1). destruct (linv_run m w ops W M1) as (H & L). pose proof (yinv_run m w ops W M1) as Y.
    rewrite lrun_snoc in *. destruct (lrun m w live_new ops) as [s tr]. destruct (lstep m w s o) as [s' x] eqn:St. cbn [fst snd] in *.
    destruct IH as (Z & Fa). destruct (zinv_step _ _ _ _ _ _ _ _ W L Y St Z) as (Z' & Vd). split; [exact Z'|].
    intros v a e b e' c q k f q' k' f' E S1 S2 S3 NH Nq.
    assert (Gr : forall j n, done (media_groups (lwritten tr)) j n -> done (media_groups (lwritten (tr ++ [(o, x)]))) j n).
    { intros j n. apply (media_grows tr (o, x) (fun gs => done gs j n)). intros; apply done_add; assumption. }
    destruct c as [|z c _] using rev_ind.
    + replace (a ++ e :: b ++ [e']) with ((a ++ e :: b) ++ [e']) in E by (rewrite <- app_assoc; reflexivity). apply app_inj_tail in E. destruct E as (-> & <-).
      destruct o as [| | | | | |u fuel order]; try discriminate S3. cbn in S3. destruct x; try discriminate. destruct (Nat.eqb_spec v u) as [<-|]; [|discriminate].
      injection S3 as -> -> ->.
      destruct (Vd v fuel order eq_refl NH q k f q' k' f') as [D|D]; auto.
      change (e :: b) with ([e] ++ b). rewrite app_assoc. unfold shown at 1. rewrite !flat_map_app. fold (shown v a) (shown v [e]) (shown v b). rewrite S1, S2, app_nil_r. apply last_opt_snoc.
    + replace (a ++ e :: b ++ e' :: c ++ [z]) with ((a ++ e :: b ++ e' :: c) ++ [z]) in E by (rewrite <- !app_assoc; cbn; rewrite <- !app_assoc; reflexivity).
      apply app_inj_tail in E. destruct E as (Et & _). rewrite results_snoc in NH.
      destruct (Fa v a e b e' c q k f q' k' f' Et S1 S2 S3) as [D|D]; auto. intros J. apply NH, in_or_app. auto.
Qed.

Lemma gives_up m w ops v a e b e' c q k f q' k' f' gs L : (62 <= w)%N -> Forall lmodest ops ->
  let tr := snd (lrun m w live_new ops) in
  tr = a ++ e :: b ++ e' :: c -> shown v [e] = [(q, k, f)] -> shown v b = [] -> shown v [e'] = [(q', k', f')] ->
  ~ In LHang (results v tr) -> (L <= latency v a)%N -> Forall (asks_for v L) b -> cut_at_keyframes (lwritten tr) gs ->
  q <> q' -> (group_of gs q (S k)) \/ (mf_ts f + L <= mf_ts f')%N.
Proof.
  intros W M tr Et S1 S2 S3 NH La Fb Ct Nq.
  rewrite <- (cut_unique _ _ _ (media_groups_cut _) Ct). destruct (fair_run m w ops W M) as (_ & Fa). fold tr in Fa.
  destruct (Fa v a e b e' c q k f q' k' f' Et S1 S2 S3 NH Nq) as [(_ & D)|D]; [left; exact D|right].
  pose proof (lows_since v L a e b _ S1 S2 La Fb). lia.
Qed.
