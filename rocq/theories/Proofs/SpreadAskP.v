(** Requests go back to where the broadcast came from. *)
From Coq Require Import NArith ZArith List Lia Bool Permutation.
From Coq Require Import Init.Byte Strings.Byte.
From Coq Require Import ZifyBool ZifyNat ZifyN.
From Verif.Model Require Import OriginSys Base Coding Message ErrorCode Stream Frame FrameSys Map Publisher ReceiverSys Spread SpreadAsk.
From Verif.Spec Require Import OriginSpec SpreadSpec AskSpec.
From Verif.Proofs Require Import TableP MapP BroadcastP OriginP OriginTop RelaySysP ReceiverP SpreadP SpreadFrameP SpreadTurnP SpreadRecvP SpreadNetP SpreadStepP SpreadInvP SpreadRunP SpreadAllP SpreadTraceP SpreadShutP SpreadChainP SpreadTopP SpreadApartP SpreadRestP SpreadCalmP.
Import ListNotations.
Open Scope nat_scope.
#[local] Arguments lookup : simpl never.

Lemma asks_run s p b path : ask_path s p b = Some path -> hp_open p = true /\ nth_error (hp_runs p) b = Some (path, true).
Proof.
  unfold ask_path. destruct (nth_error (sp_origins s) (hp_dst p)); [|discriminate]. destruct (hp_open p); [|discriminate]. cbn.
  destruct (nth_error (hp_runs p) b) as [[q []]|]; cbn; try discriminate. intros [= ->]. auto.
Qed.

(** Every broadcast delivers the tracks of at most one. *)
Lemma delivers_one ops s tr : sprun spread_new ops = (s, tr) -> forall b x y, delivers s b x -> delivers s b y -> x = y.
Proof.
  intros R. pose proof (net_run _ _ _ R) as N.
  assert (Made : forall h p b path, nth_error (sp_hops s) h = Some p -> ask_path s p b = Some path -> In (path, b) (given (hp_dst p) tr)).
  { intros h p b path Hh A. apply asks_run in A as (_ & A). exact (ho_true _ _ _ _ _ (n_hops _ _ _ _ _ _ _ N _ (nth_error_In _ _ Hh)) _ _ A). }
  assert (Mine : forall h p b path, In b (sp_mine s) -> nth_error (sp_hops s) h = Some p -> ask_path s p b = Some path -> False).
  { intros h p b path M Hh A. apply (proj2 (n_mine _ _ _ _ _ _ _ N b M) p path (nth_error_In _ _ Hh)). exact (Made _ _ _ _ Hh A). }
  intros b x y D. revert y. induction D as [b M|h p b path b1 b0 Hh A An D IH]; intros y D2.
  - destruct D2 as [b M2|h p b path b1 b0 Hh A An D]; auto. destruct (Mine _ _ _ _ M Hh A).
  - destruct D2 as [b M2|h' p' b path' b1' b0' Hh' A' An' D2]; [destruct (Mine _ _ _ _ M2 Hh A)|].
    assert (E : hp_dst p = hp_dst p').
    { apply (n_apart _ _ _ _ _ _ _ N p p' path path' b); [eapply nth_error_In; eauto|eapply nth_error_In; eauto| |].
      - exact (Made _ _ _ _ Hh A).
      - exact (Made _ _ _ _ Hh' A'). }
    assert (h = h').
    { apply (proj1 (NoDup_nth_error _) (n_hdst _ _ _ _ _ _ _ N)).
      - rewrite map_length. apply nth_error_Some. congruence.
      - rewrite (map_nth_error hp_dst _ _ Hh), (map_nth_error hp_dst _ _ Hh'). congruence. }
    subst h'. assert (p = p') by congruence. subst p'. assert (path = path') by congruence. subst path'. assert (b1 = b1') by congruence. subst b1'. auto.
Qed.

(** Every session carries one [SHop]. *)
Lemma no_prefix ops s tr : sprun spread_new ops = (s, tr) -> unprefixed tr -> forall h a c pre r, nth_error (HS s) h = Some (a, c, pre, r) -> pre = [].
Proof.
  revert ops s tr.
  apply (run_ind (fun s tr => unprefixed tr -> forall h a c pre r, nth_error (HS s) h = Some (a, c, pre, r) -> pre = [])); [intros _ [|h] a c pre r; discriminate|].
  intros ops s tr op s' x R IH S Un h a c pre r H. destruct (step_stats s _ _ op s' x (net_run _ _ _ R) S) as (_ & Hh & _). unfold HS in *. rewrite Hh in H.
  destruct (lt_dec h (length (map hstat (sp_hops s)))) as [L|L].
  - rewrite nth_error_app1 in H by auto. eapply (IH (fun a pre ks b add x I => Un a pre ks b add x (in_or_app _ _ _ (or_introl I)))); eauto.
  - rewrite nth_error_app2 in H by lia. destruct op; cbn in H; try (destruct (h - _) in H; discriminate).
    destruct (so_ok x) eqn:O; [|destruct (h - _) in H; discriminate]. destruct (h - _) as [|[|?]] in H; try discriminate. cbn in H. injection H as <- <- <- <-.
    eapply Un; [apply in_or_app; right; left; reflexivity|exact O].
Qed.

Section Run.
  Context (ops : list spop) (s : spread) (tr : list spevent) (R : sprun spread_new ops = (s, tr)) (One : once tr) (Rest : at_rest s) (Un : unprefixed tr).
  Let N : net_s s (P_of tr) (G_of tr). Proof. eapply net_run; eauto. Qed.
  Let T : told s tr. Proof. eapply told_run; eauto. Qed.

  Lemma open_delivers n path b b0 hs : chain tr (LS s) (HS s) n path b b0 hs -> In (path, b) (given n tr) -> ~ closedb (sp_closed s) b -> delivers s b b0.
  Proof.
    induction 1 as [n path b x I E|a c pre n add suf b b0 hs I Ia Ch IH|h a c pre r t b b1 b0 hs E Ig Ch IH]; intros Ip Cl.
    - constructor. exact (proj1 (proj2 (t_pub _ _ T _ _ _ _ I E))).
    - auto.
    - pose proof (no_prefix _ _ _ R Un _ _ _ _ _ E) as ->. destruct (hop_at _ _ _ R One _ _ _ _ _ E) as (p & Hp & Ih & Ea & Ec & Ep & Er & Ok & On & Cu). subst a c r.
      assert (Nc : hp_open p = true). { destruct (hp_open p) eqn:Op; auto. exfalso. apply Cl. eapply rest_cut; eauto. }
      destruct (rest_open ops s tr R Rest h p Hp Nc Ok On) as (Lf & Ov & W & _ & Tk).
      destruct (h1_travel _ _ _ _ On Lf t) as (pr & pp & X1 & X2 & X3 & X4). specialize (X4 Ov). rewrite W in X2. cbn in X2. inversion X2; subst.
      assert (Lv : pp = Live).
      { destruct pp; auto; cbn in X1.
        - exfalso. apply X1. apply (in_map fst) in Ip. exact Ip.
        - exfalso. apply Cl. apply (h1_shut _ _ _ _ On Lf t); auto. apply X1. }
      subst pp. cbn in X4. apply in_map_iff in X4 as ([t' b2] & Et & I2). cbn in Et. subst t'.
      pose proof (ho_tasks _ _ _ _ _ Ok _ I2) as I3. pose proof (NoDup_fst_in _ _ _ _ (h1_got _ _ _ _ On) Ig I3) as <-.
      assert (Ib : In (t, b1) (given (hp_src p) tr)) by (pose proof (ho_got _ _ _ _ _ Ok _ _ Ig) as Z; rewrite Ep in Z; exact Z).
      assert (Op1 : ~ closedb (sp_closed s) b1) by (eapply Tk; eauto).
      apply (delivers_asked s h p b t b1 b0 Hp).
      + unfold ask_path. destruct (ho_dst _ _ _ _ _ Ok) as (r & Hr & _). rewrite Hr, Nc. cbn [rstep rv_bcasts].
        destruct (ho_run _ _ _ _ _ Ok _ _ Ip) as (run & Hb). rewrite Hb. destruct run; [reflexivity|]. destruct (h1_quit _ _ _ _ On _ _ Hb Ip) as (Z & _). congruence.
      + unfold ask_found. pose proof (n_hsrc _ _ _ _ _ _ _ N p Ih) as Ow. destruct (nth_error (sp_origins s) (hp_src p)) as [o|] eqn:Ho; [|apply nth_error_None in Ho; destruct Ow; lia].
        cbn [ostep]. rewrite (n_prod _ _ _ _ _ _ _ N _ o Ow Ho). cbn [snd]. eapply node_open; [exact (n_node _ _ _ _ _ _ _ N _ _ Ho)| |exact Ib|exact Op1].
        apply One. apply (t_origin _ _ T). exact Ow.
      + apply IH; auto.
  Qed.

  Lemma found_delivers n path b : origin_made tr n -> finds s n path b ->
    exists b0 hs, delivers s b b0 /\ comes tr n path b0 hs /\ ~ was_ended tr b0 /\ forall h, In h hs -> ~ was_cut tr h.
  Proof.
    intros Om F. assert (Ob : ~ is_closed s b) by (exact (proj2 (settled ops s tr R One Rest n path Om) b F)). change (~ closedb (sp_closed s) b) in Ob.
    destruct (found_given _ _ _ _ _ _ R F) as (M & I). destruct (chain_run _ _ _ R _ _ _ I) as (b0 & hs & Ch). exists b0, hs.
    split; [eapply open_delivers; eauto|]. split; [apply (proj1 (chain_comes _ _ _ _ _ _ _ _ R Ch)); exact M|].
    exact (open_source ops s tr R One Rest _ _ _ _ _ Ch I Ob).
  Qed.
End Run.
