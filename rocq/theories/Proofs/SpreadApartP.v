(** Networks in which no path is published twice. *)
From Coq Require Import NArith ZArith List Lia Bool Permutation.
From Coq Require Import Init.Byte Strings.Byte.
From Coq Require Import ZifyBool ZifyNat ZifyN.
From Verif.Model Require Import OriginSys Base Coding Message ErrorCode Stream Frame FrameSys Map Publisher ReceiverSys Spread.
From Verif.Spec Require Import OriginSpec SpreadSpec.
From Verif.Proofs Require Import TableP MapP BroadcastP OriginP OriginTop RelaySysP ReceiverP SpreadP SpreadFrameP SpreadTurnP SpreadRecvP SpreadNetP SpreadStepP SpreadInvP SpreadRunP SpreadAllP SpreadTraceP SpreadShutP SpreadChainP.
Import ListNotations.
Open Scope nat_scope.
#[local] Arguments put : simpl never.
#[local] Arguments remove : simpl never.
#[local] Arguments lookup : simpl never.
#[local] Arguments set_nth : simpl never.

Definition lway (v : nat * nat * bytes * nat * bytes) : nat * bytes := (snd (fst v), snd v).

Lemma ways_snoc tr op x : ways (tr ++ [(op, x)]) = ways tr ++ match op with SLink _ _ _ b add | SHop _ _ _ b add => if so_ok x then [(b, add)] else [] | _ => [] end.
Proof. unfold ways. rewrite flat_map_app. cbn. rewrite app_nil_r. reflexivity. Qed.
Lemma puts_snoc tr op x : puts (tr ++ [(op, x)]) = puts tr ++ match op with SPublish n path _ => if so_ok x then [(n, path)] else [] | _ => [] end.
Proof. unfold puts. rewrite flat_map_app. cbn. rewrite app_nil_r. reflexivity. Qed.

Lemma apart_prefix tr e : apart (tr ++ [e]) -> apart tr.
Proof.
  destruct e as [op x]. unfold apart. rewrite ways_snoc, puts_snoc. intros (A & B & D). split; [|split].
  - intros i j n p q I J. apply A with (n := n); rewrite nth_error_app1; auto; apply nth_error_Some; congruence.
  - intros n path p s I J. eapply B; apply in_or_app; left; eauto.
  - eapply NoDup_app_l; eauto.
Qed.

Lemma ways_links ops s tr : sprun spread_new ops = (s, tr) -> ways tr = map lway (LS s).
Proof.
  revert ops s tr. apply run_ind; [reflexivity|]. intros ops s tr op s' x R IH S. pose proof (net_run _ _ _ R) as N.
  destruct (step_stats s _ _ op s' x N S) as (Hl & _). fold (LS s') in Hl. fold (LS s) in Hl. rewrite ways_snoc, IH, Hl, map_app.
  f_equal. destruct op; cbn; auto; destruct (so_ok x); reflexivity.
Qed.

(** What a forwarding task holds after a step. *)
Lemma hold_step s P G op s' x k l l' : net_s s P G -> spstep s op = (s', x) -> nth_error (sp_links s) k = Some l -> nth_error (sp_links s') k = Some l' ->
  lk_hold l' = lk_hold l \/ lk_hold l' = None \/ exists suf b us o kk, lk_hold l' = Some (suf, b) /\ lk_over l = false /\
    nth_error (sp_origins s) (lk_src l) = Some o /\ get (os_cons o) (lk_cons l) = Some kk /\ oc_updates kk = (suf, b) :: us.
Proof.
  intros N S H H'.
  assert (Same : sp_links s' = sp_links s -> lk_hold l' = lk_hold l) by (intros E; congruence).
  assert (App : forall m, sp_links s' = sp_links s ++ m -> lk_hold l' = lk_hold l).
  { intros m E. rewrite E, nth_error_app1 in H' by (apply nth_error_Some; congruence). congruence. }
  assert (Rc : forall h p op s1 y, receive s h p op = (s1, y) -> sp_links s1 = sp_links s).
  { intros h p op0 s1 y. unfold receive. destruct (nth_error (sp_origins s) (hp_dst p)); [|intros [= <- <-]; auto]. destruct (rstep _ _). intros [= <- <-]. reflexivity. }
  destruct op; cbn [spstep] in S.
  - injection S as <- <-. auto.
  - destruct (sp_origins s); injection S as <- <-; auto.
  - destruct (existsb (Nat.eqb b) (sp_mine s)); injection S as <- <-; auto.
  - destruct (_ && _); [destruct (on_origin _ _ _)|]; injection S as <- <-; auto.
  - destruct (_ && _); [destruct (on_origin _ _ _)|]; injection S as <- <-; auto.
  - destruct (_ && _); [destruct (on_origin _ _ _)|]; injection S as <- <-; auto. left. eapply App. reflexivity.
  - destruct (_ && _); [destruct (on_origin _ _ _)|]; injection S as <- <-; auto. left. eapply App. reflexivity.
  - destruct (nth_error (sp_hops s) h); [|injection S as <- <-; auto]. destruct (receive _ _ _ _) eqn:R. injection S as <- <-. left. eauto.
  - destruct (on_origin _ _ _). injection S as <- <-. auto.
  - destruct (nth_error (sp_links s) k0) as [l0|] eqn:Hk0; [|injection S as <- <-; auto].
    destruct (Nat.eq_dec k0 k) as [->|Ne].
    2:{ left. assert (W : forall os m ev, (with_link s k0 os m, ev) = (s', x) -> lk_hold l' = lk_hold l).
        { intros os m ev [= <- <-]. cbn in H'. rewrite nth_error_set_ne in H' by auto. congruence. }
        destruct l0 as [src c pre dst add wait hold []]; [injection S as <- <-; auto|].
        destruct hold as [[suf b]|]; [destruct (on_origin _ _ _); eapply W; eauto|]. destruct wait.
        - destruct (on_origin _ _ _) as [os ev]. destruct ev as [|[? [? []]] [|]]; try (eapply W; eauto; fail). destruct (on_origin _ _ _). eapply W; eauto.
        - destruct (on_origin _ _ _) as [os ev]. destruct ev as [|[? [? []]] [|]]; try (eapply W; eauto; fail). }
    assert (l0 = l) by congruence. subst l0. clear H.
    assert (W : forall os m ev, (with_link s k os m, ev) = (s', x) -> l' = m).
    { intros os m ev [= <- <-]. cbn in H'. rewrite nth_error_set_eq in H' by (apply nth_error_Some; congruence). congruence. }
    destruct l as [src c pre dst add wait hold []]; [injection S as <- <-; auto|].
    destruct hold as [[suf b]|]; [destruct (on_origin _ _ _); apply W in S as ->; cbn; auto|]. destruct wait.
    + destruct (on_origin _ _ _) as [os ev]. destruct ev as [|[? [? []]] [|]]; try (apply W in S as ->; cbn; auto; fail). destruct (on_origin _ _ _). apply W in S as ->. cbn. auto.
    + unfold on_origin in S. cbn. destruct (nth_error (sp_origins s) src) as [o|] eqn:Ho; [|apply W in S as ->; cbn; auto].
      cbn [ostep] in S. destruct (get (os_cons o) c) as [[kp ku kt kr kl]|] eqn:K; [|apply W in S as ->; cbn; auto]. destruct kr; [apply W in S as ->; cbn; auto|].
      destruct ku as [|[suf b] us]; apply W in S as ->; cbn; auto. right. right. exists suf, b, us, o. eexists. eauto.
  - destruct (nth_error (sp_hops s) h) as [[src c pre dst a wire m lf runs open]|] eqn:Hh; [|injection S as <- <-; auto].
    destruct (an_over a); [injection S as <- <-; auto|]. cbn zeta in S. left. apply Same. clear -S.
    destruct open; [|destruct (on_origin _ _ _); injection S as <- <-; reflexivity].
    destruct (on_origin src (OPop c) _) as [os ev]. destruct (on_origin src (ORecv c) os) as [os1 ev1]. destruct (on_origin src (OCancel c) os1) as [os2 ev2].
    destruct (nstep (knowing (shut (sp_closed s)) a) (NTurn APending j ks)) as [a' y].
    assert (T : forall e, sp_links (fst (match y with NSent ms => (with_hop s h os2 (Hop src c pre dst (knowing [] a') (wire ++ ms) m lf runs true), e)
         | _ => (with_hop s h os2 (Hop src c pre dst (knowing [] (knowing (shut (sp_closed s)) a)) wire m lf runs true), e) end : spread * spout)) = sp_links s) by (intros e; destruct y; reflexivity).
    assert (T1 : forall e, sp_links (fst (match ev1 with
          | [(_, (_, OWoken))] => (with_hop s h os1 (Hop src c pre dst (knowing [] (knowing (shut (sp_closed s)) a)) wire m lf runs true), fine (e ++ ev1))
          | _ => match y with NSent ms => (with_hop s h os2 (Hop src c pre dst (knowing [] a') (wire ++ ms) m lf runs true), fine (e ++ ev1 ++ ev2))
         | _ => (with_hop s h os2 (Hop src c pre dst (knowing [] (knowing (shut (sp_closed s)) a)) wire m lf runs true), fine (e ++ ev1 ++ ev2)) end end)) = sp_links s).
    { intros e. destruct ev1 as [|[? [? []]] [|]]; try apply T. reflexivity. }
    destruct ev as [|[? [? []]] [|]]; try (match type of S with ?L = _ => change s' with (fst (s', x)); rewrite <- S; apply T1 end; fail).
    destruct (nstep (fst _) _) as [a2 []]; injection S as <- <-; reflexivity.
  - destruct (nth_error (sp_hops s) h) as [[src c pre dst a wire m lf runs open]|] eqn:Hh; [|injection S as <- <-; auto].
    destruct wire as [|msg wire]; [injection S as <- <-; auto|]. destruct lf; [injection S as <- <-; auto|].
    destruct (receive _ _ _ _) eqn:R. injection S as <- <-. left. eauto.
  - destruct (nth_error (sp_hops s) h) as [p|]; [|injection S as <- <-; auto]. destruct (hp_open p); [injection S as <- <-; auto|].
    destruct (receive _ _ _ _) eqn:R. injection S as <- <-. left. eauto.
  - destruct (nth_error (sp_hops s) h) as [p|]; [|injection S as <- <-; auto]. destruct (receive _ _ _ _) eqn:R. injection S as <- <-. left. eauto.
  - destruct (nth_error (sp_hops s) h) as [p|]; [|injection S as <- <-; auto]. destruct (receive _ _ _ _) eqn:R. injection S as <- <-. left. eauto.
  - injection S as <- <-. auto.
Qed.

Lemma pubs_short n did : length (flat_map pub_of (at_n n did)) <= length did.
Proof.
  unfold at_n. induction did as [|[m e] did IH]; cbn; auto. destruct (Nat.eqb m n); cbn; [|lia]. rewrite app_length.
  assert (length (pub_of e) <= 1) by (destruct e as [[] []]; cbn; lia). lia.
Qed.
Lemma on_short i o os : length (snd (on_origin i o os)) <= 1.
Proof. unfold on_origin. destruct (nth_error os i); [destruct (ostep _ _)|]; cbn; lia. Qed.
Lemma one_pub s op s' x n : spstep s op = (s', x) -> length (flat_map pub_of (at_n n (so_did x))) <= 1.
Proof.
  intros S. destruct (flat_map pub_of (at_n n (so_did x))) as [|[path b] L] eqn:E; [cbn; lia|]. rewrite <- E.
  assert (I : In (path, b) (flat_map pub_of (at_n n (so_did x)))) by (rewrite E; left; reflexivity).
  etransitivity; [apply pubs_short|].
  destruct (pubs_source s op s' x n path b S I) as [(-> & _)|[(k & l & suf & -> & Hk & Ho & _)|(h & p & -> & Hp & _)]]; cbn [spstep] in S.
  - destruct (_ && _); [|injection S as <- <-; cbn; lia]. pose proof (on_short n (OPublish 0 path b) (sp_origins s)) as Z. destruct (on_origin _ _ _). injection S as <- <-. exact Z.
  - rewrite Hk in S. destruct l as [src c pre dst add wait hold []]; [injection S as <- <-; cbn; lia|]. cbn in Ho. subst hold.
    pose proof (on_short dst (OPublish 0 (add ++ suf) b) (sp_origins s)) as Z. destruct (on_origin _ _ _). injection S as <- <-. exact Z.
  - rewrite Hp in S. destruct p as [src c pre dst a wire m lf runs open]. destruct wire as [|msg wire]; [injection S as <- <-; cbn; lia|]. destruct lf; [injection S as <- <-; cbn; lia|].
    destruct (receive _ _ _ _) as [s1 y]. injection S as <- <-. destruct msg; cbn; [destruct y; cbn; lia|lia].
Qed.

(** Where a publication came from. *)
Definition made_by (s : spread) (tr : list spevent) (n : nat) (path : bytes) (b : nat) : Prop :=
  In (n, path) (puts tr) \/
  exists k l suf, nth_error (sp_links s) k = Some l /\ lk_dst l = n /\ path = lk_add l ++ suf /\ In (suf, b) (got (lk_cons l) (history (lk_src l) tr)) /\
    forall b', lk_hold l <> Some (suf, b').

Definition separate (s : spread) (tr : list spevent) : Prop :=
  forall n, mine_of s n -> NoDup (map fst (given n tr)) /\ forall path b, In (path, b) (given n tr) -> made_by s tr n path b.

Lemma mine_or_hop ops s tr n : sprun spread_new ops = (s, tr) -> n < length (sp_origins s) -> mine_of s n \/ exists p, In p (sp_hops s) /\ hp_dst p = n.
Proof.
  intros R L. destruct (existsb (fun p => Nat.eqb (hp_dst p) n) (sp_hops s)) eqn:E.
  - right. apply existsb_exists in E as (p & I & E). apply Nat.eqb_eq in E. eauto.
  - left. split; auto. intros p I Ep. assert (Z : existsb (fun p => Nat.eqb (hp_dst p) n) (sp_hops s) = true).
    { apply existsb_exists. exists p. split; auto. apply Nat.eqb_eq. auto. }
    congruence.
Qed.

Lemma all_nodup ops s tr : sprun spread_new ops = (s, tr) -> (forall n, mine_of s n -> NoDup (map fst (given n tr))) -> forall n, NoDup (map fst (given n tr)).
Proof.
  intros R A n. pose proof (net_run _ _ _ R) as N. destruct (lt_dec n (length (sp_origins s))) as [L|L].
  - destruct (mine_or_hop _ _ _ n R L) as [M|(p & I & <-)]; auto. pose proof (n_hops _ _ _ _ _ _ _ N p I) as Ok.
    eapply h1_pubs. eapply (ho_once _ _ _ _ _ Ok). apply A. apply (n_hsrc _ _ _ _ _ _ _ N p I).
  - destruct (n_new _ _ _ _ _ _ _ N n) as (E & _); [lia|]. unfold P_of in E. rewrite E. constructor.
Qed.

Lemma link_grows s P G op s' x k l : net_s s P G -> spstep s op = (s', x) -> nth_error (sp_links s) k = Some l ->
  exists l', nth_error (sp_links s') k = Some l' /\ lstat l' = lstat l.
Proof.
  intros N S H. destruct (step_stats s _ _ op s' x N S) as (Hl & _).
  assert (Z : nth_error (map lstat (sp_links s')) k = Some (lstat l)).
  { rewrite Hl, nth_error_app1; [|apply nth_error_Some]; erewrite map_nth_error by eauto; [reflexivity|discriminate]. }
  rewrite nth_error_map in Z. destruct (nth_error (sp_links s') k) as [l'|]; [|discriminate]. cbn in Z. exists l'. split; congruence.
Qed.

Lemma separate_run ops s tr : sprun spread_new ops = (s, tr) -> apart tr -> separate s tr.
Proof.
  revert ops s tr. apply (run_ind (fun s tr => apart tr -> separate s tr)); [intros _ n (L & _); cbn in L; lia|].
  intros ops s tr op s' x R IH S Ap. pose proof (net_run _ _ _ R) as N. specialize (IH (apart_prefix _ _ Ap)).
  pose proof (all_nodup _ _ _ R (fun n M => proj1 (IH n M))) as Nd.
  pose proof (ways_links _ _ _ R) as Wl.
  (* what was made stays made *)
  assert (Keep : forall n path b, made_by s tr n path b -> made_by s' (tr ++ [(op, x)]) n path b).
  { intros n path b [I|(k & l & suf & Hk & <- & -> & Ig & Nh)]; [left; rewrite puts_snoc; apply in_or_app; auto|].
    right. destruct (link_grows _ _ _ _ _ _ _ _ N S Hk) as (l' & Hk' & E). unfold lstat in E. injection E as E1 E2 E3 E4 E5.
    exists k, l', suf. rewrite E1, E2, E4, E5. split; auto. split; auto. split; auto. split.
    - rewrite history_snoc. unfold got. rewrite flat_map_app. apply in_or_app. auto.
    - intros b'. destruct (hold_step _ _ _ _ _ _ _ _ _ N S Hk Hk') as [->|[->|(suf1 & b1 & us & o & kk & -> & Ov & Ho & K & U)]]; auto; [discriminate|].
      intros [= -> _]. assert (Il : In l (sp_links s)) by (eapply nth_error_In; eauto). pose proof (n_links _ _ _ _ _ _ _ N l Il) as Ok.
      destruct (lo_src _ _ _ _ _ Ok) as (o2 & Ho2 & Q). rewrite Ov in Q. destruct Q as (k2 & K2 & _ & _ & _ & Q). assert (o2 = o) by congruence. subst o2.
      assert (k2 = kk) by congruence. subst k2. destruct (Q (Nd _)) as (Q2 & _). rewrite U in Q2. rewrite map_app in Q2.
      eapply NoDup_app_apart; [exact Q2| |left; reflexivity]. apply (in_map fst) in Ig. exact Ig. }
  (* the new publications *)
  assert (New : forall n path b, mine_of s n -> In (path, b) (flat_map pub_of (at_n n (so_did x))) ->
     ~ In path (map fst (given n tr)) /\ made_by s' (tr ++ [(op, x)]) n path b).
  { intros n path b M I. destruct (pubs_source s op s' x n path b S I) as [(-> & E)|[(k & l & suf & -> & Hk & Ho & -> & ->)|(h & p & -> & Hp & W & ->)]].
    - destruct Ap as (A1 & A2 & A3). rewrite puts_snoc, E in A2, A3. rewrite ways_snoc, app_nil_r in A1, A2. split.
      + intros J. apply in_map_iff in J as ([q b1] & Eq & J). cbn in Eq. subst q. destruct (proj2 (IH n M) _ _ J) as [K|(k & l & suf & Hk & <- & -> & _)].
        * apply NoDup_remove_2 in A3. apply A3. rewrite app_nil_r. exact K.
        * eapply (A2 (lk_dst l) (lk_add l ++ suf) (lk_add l)); [apply in_or_app; right; left; reflexivity| |reflexivity].
          rewrite Wl. apply in_map_iff. exists (lstat l). split; [reflexivity|]. apply in_map. eapply nth_error_In; eauto.
      + left. rewrite puts_snoc, E. apply in_or_app. right. left. reflexivity.
    - destruct Ap as (A1 & A2 & A3). rewrite ways_snoc, app_nil_r in A1, A2. rewrite puts_snoc, app_nil_r in A2.
      assert (Il : In l (sp_links s)) by (eapply nth_error_In; eauto). pose proof (n_links _ _ _ _ _ _ _ N l Il) as Ok.
      destruct (lo_hold _ _ _ _ _ Ok _ _ Ho) as (Ig & _).
      assert (Wk : nth_error (ways tr) k = Some (lk_dst l, lk_add l)).
      { rewrite Wl. unfold LS. rewrite map_map. erewrite map_nth_error by eauto. reflexivity. }
      split.
      + intros J. apply in_map_iff in J as ([q b1] & Eq & J). cbn in Eq. subst q. destruct (proj2 (IH _ M) _ _ J) as [K|(k2 & l2 & suf2 & Hk2 & Ed & Ea & Ig2 & Nh)].
        * eapply A2; [exact K|apply nth_error_In in Wk; exact Wk|reflexivity].
        * destruct (Nat.eq_dec k2 k) as [->|Ne].
          -- assert (l2 = l) by congruence. subst l2. apply app_inv_head in Ea. subst suf2. eapply Nh; eauto.
          -- assert (Wk2 : nth_error (ways tr) k2 = Some (lk_dst l, lk_add l2)).
             { rewrite Wl. unfold LS. rewrite map_map. erewrite map_nth_error by eauto. unfold lway, lstat. cbn. congruence. }
             eapply (A1 k2 k); eauto.
      + right. destruct (link_grows _ _ _ _ _ _ _ _ N S Hk) as (l' & Hk' & E). unfold lstat in E. injection E as E1 E2 E3 E4 E5.
        exists k, l', suf. rewrite E1, E2, E4, E5. split; auto. split; auto. split; auto. split.
        * rewrite history_snoc. unfold got. rewrite flat_map_app. apply in_or_app. left. exact Ig.
        * intros b'. cbn [spstep] in S. rewrite Hk in S. destruct l as [src c pre dst add wait hold over]. cbn in Ho. subst hold. destruct over.
          -- destruct (lo_src _ _ _ _ _ Ok) as (o & _ & _ & _ & Q). discriminate.
          -- destruct (on_origin _ _ _). injection S as <- <-. cbn in Hk'. rewrite nth_error_set_eq in Hk' by (apply nth_error_Some; congruence). injection Hk' as <-. discriminate.
    - exfalso. destruct M as (_ & D). eapply D; eauto. eapply nth_error_In; eauto. }
  assert (One : forall n, (length (flat_map pub_of (at_n n (so_did x))) <= 1)).
  { intros n. eapply one_pub; eauto. }
  intros n M. rewrite given_snoc. cbn [snd]. apply (mine_step _ _ _ N _ _ _ S) in M as [M|(-> & E)].
  - destruct (IH n M) as (I1 & I2). split.
    + rewrite map_app. apply NoDup_app_intro; auto.
      * specialize (One n). destruct (flat_map pub_of (at_n n (so_did x))) as [|y [|z l]]; cbn; [constructor|constructor; [intros []|constructor]|cbn in One; lia].
      * intros q A B. apply in_map_iff in B as ([q2 b] & Eq & B). cbn in Eq. subst q2. apply (New n q b M B). exact A.
    + intros path b I. apply in_app_or in I as [I|I]; [auto|]. apply New; auto.
  - cbn in S. injection S as <- <-. injection E as <-. cbn.
    destruct (n_new _ _ _ _ _ _ _ N (length (sp_origins s))) as (E & _); [lia|]. unfold P_of in E. rewrite E. split; [constructor|intros ? ? []].
Qed.

Lemma apart_once ops s tr : sprun spread_new ops = (s, tr) -> apart tr -> once tr.
Proof.
  intros R Ap n M. apply (separate_run _ _ _ R Ap). apply (t_origin _ _ (told_run _ _ _ R)). exact M.
Qed.
