(** What is found where, and when. *)
From Coq Require Import NArith ZArith List Lia Bool Permutation.
From Coq Require Import Init.Byte Strings.Byte.
From Coq Require Import ZifyBool ZifyNat ZifyN.
From Verif.Model Require Import OriginSys Base Coding Message ErrorCode Stream Frame FrameSys Map Publisher ReceiverSys Spread.
From Verif.Spec Require Import OriginSpec SpreadSpec.
From Verif.Proofs Require Import TableP MapP BroadcastP OriginP OriginTop RelaySysP ReceiverP SpreadP SpreadFrameP SpreadTurnP SpreadRecvP SpreadNetP SpreadStepP SpreadInvP SpreadRunP SpreadAllP SpreadTraceP SpreadShutP SpreadChainP.
Import ListNotations.
Open Scope nat_scope.
#[local] Arguments put : simpl never.
#[local] Arguments remove : simpl never.
#[local] Arguments lookup : simpl never.
#[local] Arguments set_nth : simpl never.

Lemma found_active ops s tr n path b : sprun spread_new ops = (s, tr) ->
  (finds s n path b <-> mine_of s n /\ exists o, nth_error (sp_origins s) n = Some o /\ lookup path (os_active o) = Some b).
Proof.
  intros R. pose proof (net_run _ _ _ R) as N. unfold finds. cbn [spstep usable]. rewrite andb_true_r. split.
  - destruct (own s n) eqn:O; [|discriminate]. apply own_iff in O. destruct (nth_error (sp_origins s) n) as [o|] eqn:H; [|apply nth_error_None in H; destruct O; lia].
    pose proof (n_prod _ _ _ _ _ _ _ N n o O H) as Pr. unfold on_origin. rewrite H. cbn [ostep]. rewrite Pr. cbn. intros [= E]. split; auto. exists o. auto.
  - intros (O & o & H & L). pose proof (n_prod _ _ _ _ _ _ _ N n o O H) as Pr. apply own_iff in O. rewrite O. unfold on_origin. rewrite H. cbn [ostep]. rewrite Pr, L. reflexivity.
Qed.

Lemma found_given ops s tr n path b : sprun spread_new ops = (s, tr) -> finds s n path b -> mine_of s n /\ In (path, b) (given n tr).
Proof.
  intros R F. apply (found_active _ _ _ _ _ _ R) in F as (M & o & H & L). split; auto.
  pose proof (net_run _ _ _ R) as N. eapply node_active; eauto. apply (n_node _ _ _ _ _ _ _ N _ _ H).
Qed.

Lemma given_comes ops s tr n path b : sprun spread_new ops = (s, tr) -> origin_made tr n -> In (path, b) (given n tr) -> exists b0 hs, comes tr n path b0 hs.
Proof.
  intros R M I. destruct (chain_run _ _ _ R _ _ _ I) as (b0 & hs & C). exists b0, hs. eapply (proj1 (chain_comes _ _ _ _ _ _ _ _ R C)).
  apply (t_origin _ _ (told_run _ _ _ R)). exact M.
Qed.

Section Run.
  Context (ops : list spop) (s : spread) (tr : list spevent) (R : sprun spread_new ops = (s, tr)) (One : once tr).
  Let N : net_s s (P_of tr) (G_of tr). Proof. eapply net_run; eauto. Qed.
  Let T : told s tr. Proof. eapply told_run; eauto. Qed.
  Let C := sp_closed s.

  Lemma hop_at h a c pre r : nth_error (HS s) h = Some (a, c, pre, r) -> exists p, nth_error (sp_hops s) h = Some p /\ In p (sp_hops s) /\
    hp_src p = a /\ hp_cons p = c /\ hp_pre p = pre /\ hp_dst p = r /\ hop_ok C (sp_origins s) (P_of tr) (G_of tr) p /\ hop_once C (given r tr) (got c (history a tr)) p /\
    (hp_open p = false <-> was_cut tr h).
  Proof.
    intros E. unfold HS in E. rewrite nth_error_map in E. destruct (nth_error (sp_hops s) h) as [p|] eqn:Hp; [|discriminate]. cbn in E. unfold hstat in E. injection E as <- <- <- <-.
    assert (I : In p (sp_hops s)) by (eapply nth_error_In; eauto). exists p. pose proof (n_hops _ _ _ _ _ _ _ N p I) as Ok. do 5 (split; [auto|]). split; [auto|]. split; [exact Ok|]. split.
    - apply (ho_once _ _ _ _ _ Ok). apply One. apply (t_origin _ _ T). apply (n_hsrc _ _ _ _ _ _ _ N p I).
    - rewrite <- (t_cut _ _ T). unfold OP. erewrite map_nth_error by eauto. split; congruence.
  Qed.

  Lemma closed_cause n path b b0 hs : chain tr (LS s) (HS s) n path b b0 hs -> In (path, b) (given n tr) -> closedb C b ->
    was_ended tr b0 \/ exists h, In h hs /\ was_cut tr h.
  Proof.
    induction 1 as [n path b x I E|a c pre n add suf b b0 hs I Ia Ch IH|h a c pre r t b b1 b0 hs E Ig Ch IH]; intros Ip Cl.
    - left. destruct (t_pub _ _ T _ _ _ _ I E) as (_ & M & _). apply (t_end _ _ T). auto.
    - auto.
    - destruct (hop_at _ _ _ _ _ E) as (p & Hp & _ & Ea & Ec & Ep & Er & Ok & On & Cu). destruct (h1_cause _ _ _ _ On _ _ Ip Cl) as [Q|(b2 & I2 & C2)].
      + right. exists h. split; [left; reflexivity|]. apply Cu. exact Q.
      + pose proof (NoDup_fst_in _ _ _ _ (h1_got _ _ _ _ On) Ig I2) as <-.
        destruct IH as [?|(h' & ? & ?)]; auto.
        * subst a c pre. apply (ho_got _ _ _ _ _ Ok). exact Ig.
        * right. exists h'. split; [right|]; auto.
  Qed.

  (** * At rest *)
  Context (Rest : at_rest s).

  Lemma rest_receive h p r op rs x : nth_error (sp_hops s) h = Some p -> nth_error (sp_origins s) (hp_dst p) = Some r ->
    fst (receive s h p op) = s -> rstep (the_loop p r) op = (rs, x) -> hp_left p = rv_over rs /\ hp_runs p = hp_runs (with_runs (length (os_closed (rv_origin rs))) (after p (hp_wire p) rs)).
  Proof.
    intros Hp Hr E Q. unfold receive in E. rewrite Hr in E. unfold the_loop in Q. rewrite Q in E. cbn [fst] in E.
    apply (f_equal (fun s => nth_error (sp_hops s) h)) in E. cbn in E. rewrite Hp in E.
    rewrite nth_error_map, nth_error_set_eq in E by (apply nth_error_Some; congruence). cbn in E. injection E as E. split.
    - apply (f_equal hp_left) in E. cbn in E. congruence.
    - apply (f_equal hp_runs) in E. cbn in E. symmetry. exact E.
  Qed.

  Lemma rest_cut h p : nth_error (sp_hops s) h = Some p -> hp_open p = false -> hop_ok C (sp_origins s) (P_of tr) (G_of tr) p ->
    hop_once C (given (hp_dst p) tr) (got (hp_cons p) (history (hp_src p) tr)) p -> forall t b, In (t, b) (given (hp_dst p) tr) -> closedb C b.
  Proof.
    intros Hp Op Ok On t b I. destruct (ho_dst _ _ _ _ _ Ok) as (r & Hr & _).
    assert (L : hp_left p <> None).
    { intros L. pose proof (Rest (SLeave h) Logic.I) as E. cbn [spstep] in E. rewrite Hp, Op in E. destruct (receive s h p (REnd (Some WebTransport))) as [s1 y] eqn:Q. cbn in E. subst s1.
      destruct (rstep (the_loop p r) (REnd (Some WebTransport))) as [rs x] eqn:Q2. destruct (rest_receive h p r _ rs x Hp Hr (f_equal fst Q) Q2) as (Z & _).
      cbn in Q2. rewrite L in Q2. injection Q2 as <- <-. cbn in Z. congruence. }
    destruct (h1_left _ _ _ _ On L) as (_ & M). destruct (ho_run _ _ _ _ _ Ok t b I) as (run & Hb).
    destruct run.
    - exfalso. pose proof (Rest (SGone h b) Logic.I) as E. cbn [spstep] in E. rewrite Hp in E. destruct (receive s h p (RRun b)) as [s1 y] eqn:Q. cbn in E. subst s1.
      destruct (rstep (the_loop p r) (RRun b)) as [rs x] eqn:Q2. destruct (rest_receive h p r _ rs x Hp Hr (f_equal fst Q) Q2) as (_ & Z).
      unfold the_loop in Q2. cbn in Q2. rewrite Op, Hb in Q2. injection Q2 as <- <-. cbn in Z.
      assert (K : nth_error (hp_runs p) b = Some (t, false)).
      { rewrite Z. rewrite nth_error_app1 by (rewrite set_nth_length; apply nth_error_Some; congruence). apply nth_error_set_eq. apply nth_error_Some. congruence. }
      congruence.
    - destruct (h1_quit _ _ _ _ On _ _ Hb I) as (_ & [?|Z]); auto. rewrite M in Z. discriminate.
  Qed.

  Lemma set_eq {A} n (x y : A) l : nth_error l n = Some x -> set_nth n y l = l -> y = x.
  Proof. intros H E. assert (Z : nth_error (set_nth n y l) n = Some y) by (apply nth_error_set_eq; apply nth_error_Some; congruence). rewrite E in Z. congruence. Qed.

  Lemma rest_task k l : nth_error (sp_links s) k = Some l -> lk_over l = false -> exists o kk, nth_error (sp_origins s) (lk_src l) = Some o /\
     tracks C (given (lk_src l) tr) (got (lk_cons l) (history (lk_src l) tr)) o (lk_cons l) (lk_pre l) (lk_wait l) /\
     get (os_cons o) (lk_cons l) = Some kk /\ oc_updates kk = [] /\ lk_hold l = None.
  Proof.
    intros Hk Ov. assert (Il : In l (sp_links s)) by (eapply nth_error_In; eauto). pose proof (n_links _ _ _ _ _ _ _ N l Il) as Ok.
    destruct (lo_src _ _ _ _ _ Ok) as (o & Ho & Q). rewrite Ov in Q. pose proof Q as (kk & Kg & Kp & Kr & _). exists o, kk. repeat (split; [auto; fail|]).
    pose proof (Rest (SStep k) Logic.I) as E. cbn [spstep] in E. rewrite Hk in E. destruct l as [src c pre dst add wait hold over]. cbn in *. subst over.
    assert (LK : forall os l', with_link s k os l' = s -> l' = Link src c pre dst add wait hold false /\ os = sp_origins s).
    { intros os l' Z. split; [|apply (f_equal sp_origins) in Z; exact Z]. apply (f_equal sp_links) in Z. cbn in Z. eapply set_eq; eauto. }
    destruct hold as [[suf b]|].
    - exfalso. destruct (on_origin dst _ _) as [os ev]. apply LK in E as (E & _). discriminate.
    - split; auto. pose proof (n_node _ _ _ _ _ _ _ N _ _ Ho) as Nd. destruct (oc_updates kk) as [|u us] eqn:U; auto. exfalso.
      destruct kk as [kp ku kt kr kl]. cbn in *. subst ku kr. destruct wait.
      + pose proof (v_token _ (nd_owf _ _ _ Nd) _ _ Kg eq_refl) as Tk. cbn in Tk. rewrite Tk in Kg by discriminate.
        unfold on_origin in E. rewrite Ho in E. cbn [ostep] in E. rewrite Kg in E. cbn in E. apply LK in E as (E & _). discriminate.
      + unfold on_origin in E. rewrite Ho in E. cbn [ostep] in E. rewrite Kg in E. destruct u. cbn in E. apply LK in E as (E & _). discriminate.
  Qed.

  Lemma with_cons_eq o t : owith_cons o t = o -> t = os_cons o.
  Proof. intros E. apply (f_equal os_cons) in E. exact E. Qed.

  Lemma rest_open h p : nth_error (sp_hops s) h = Some p -> hp_open p = true -> hop_ok C (sp_origins s) (P_of tr) (G_of tr) p ->
    hop_once C (given (hp_dst p) tr) (got (hp_cons p) (history (hp_src p) tr)) p ->
    hp_left p = None /\ an_over (hp_ann p) = false /\ hp_wire p = [] /\
    (exists o kk, nth_error (sp_origins s) (hp_src p) = Some o /\ tracks C (given (hp_src p) tr) (got (hp_cons p) (history (hp_src p) tr)) o (hp_cons p) (hp_pre p) false /\
       get (os_cons o) (hp_cons p) = Some kk /\ oc_updates kk = []) /\
    (forall t b, In (t, b) (an_tasks (hp_ann p)) -> ~ closedb C b).
  Proof.
    intros Hp Op Ok On.
    assert (Lf : hp_left p = None). { destruct (hp_left p) eqn:E; auto. destruct (h1_left _ _ _ _ On) as (Z & _); congruence. }
    assert (Ov : an_over (hp_ann p) = false). { destruct (an_over (hp_ann p)) eqn:E; auto. pose proof (ho_over _ _ _ _ _ Ok E). congruence. }
    split; auto. split; auto. split.
    - destruct (hp_wire p) as [|m w] eqn:W; auto. exfalso. pose proof (Rest (SRead h) Logic.I) as E. cbn [spstep] in E. rewrite Hp in E.
      destruct p as [src c pre dst a wire mp lf runs open]. cbn in W, Lf. subst wire lf. destruct (ho_dst _ _ _ _ _ Ok) as (r & Hr & _). cbn in Hr.
      unfold receive in E. cbn [hp_dst] in E. rewrite Hr in E. destruct (rstep _ (RMsg m)) as [rs x]. cbn [fst] in E.
      apply (f_equal (fun s => nth_error (sp_hops s) h)) in E. cbn in E. rewrite Hp in E.
      rewrite nth_error_map, nth_error_set_eq in E by (apply nth_error_Some; congruence). cbn in E. injection E as E _.
      apply (f_equal (@length _)) in E. cbn in E. lia.
    - destruct (ho_src _ _ _ _ _ Ok) as (o & Ho & Q). specialize (Q Ov). pose proof Q as (kk & Kg & Kp & Kr & _).
      pose proof (n_node _ _ _ _ _ _ _ N _ _ Ho) as Nd.
      destruct (ho_ann _ _ _ _ _ Ok) as (Aq & Ag & Ac).
      destruct p as [src c pre dst a wire mp lf runs open]. cbn in *. subst open.
      assert (LK : forall os p', with_hop s h os p' = s -> hp_wire p' = wire /\ os = sp_origins s).
      { intros os p' Z. split; [|apply (f_equal sp_origins) in Z; exact Z]. apply (f_equal sp_hops) in Z. cbn in Z. rewrite (set_eq _ _ _ _ Hp Z). reflexivity. }
      destruct a as [aq ag ac act T0 ov]. cbn in *. subst aq ag ac ov. destruct kk as [kp ku kt kr kl]. cbn in *. subst kr.
      assert (Lo : src < length (sp_origins s)) by (apply nth_error_Some; congruence).
      assert (U : ku = []).
      { destruct ku as [|[suf b] us]; auto. exfalso. pose proof (Rest (STurn h 0 []) Logic.I) as E. cbn [spstep] in E. rewrite Hp in E. cbn [an_over] in E.
        unfold on_origin in E. rewrite Ho in E. cbn [ostep] in E. rewrite Kg in E. cbn in E. apply LK in E as (E & _). cbn in E.
        apply (f_equal (@length _)) in E. rewrite app_length in E. cbn in E. lia. }
      subst ku. split; [exists o; eexists; repeat (split; [eauto; fail|]); reflexivity|].
      intros t b I Cl. apply In_nth_error in I as (j & Hj). pose proof (Rest (STurn h j []) Logic.I) as E. cbn [spstep] in E. rewrite Hp in E. cbn [an_over] in E.
      assert (Kt : kt = false).
      { destruct kt; auto. exfalso. unfold on_origin in E. rewrite Ho in E. cbn [ostep] in E. rewrite Kg in E. cbn -[nth_error] in E.
        rewrite nth_error_set_eq in E by auto. cbn -[nth_error] in E. unfold owith_cons in E. cbn -[nth_error] in E.
        rewrite (get_set_eq _ _ _ _ Kg) in E. cbn -[nth_error] in E. apply LK in E as (_ & E). rewrite set_set in E.
        pose proof (set_eq _ _ _ _ Ho E) as E2. apply (f_equal (fun o => get (os_cons o) c)) in E2. cbn -[nth_error] in E2. rewrite set_set in E2.
        rewrite (get_set_eq _ _ _ _ Kg), Kg in E2. discriminate. }
      subst kt.
      set (kn := knowing (shut (sp_closed s)) (Ann [] false [] act T0 false)) in E.
      assert (Nt : exists a', nstep kn (NTurn APending j []) = (a', NSent [Ended t])).
      { unfold kn, knowing. cbn -[nth_error shut closed_task]. rewrite Hj.
        assert (Z : closed_task (Ann [] false (shut (sp_closed s)) act T0 false) (t, b) = true).
        { unfold closed_task. cbn -[shut]. apply existsb_exists. exists b. split; [|apply Nat.eqb_refl]. unfold shut. apply filter_In.
          split; [|exact Cl]. apply in_seq. pose proof (closedb_lt _ _ Cl). unfold C in *. lia. }
        rewrite Z. eauto. }
      destruct Nt as (a' & Nt).
      unfold on_origin in E. rewrite Ho in E. cbn [ostep] in E. rewrite Kg in E. cbn -[nth_error nstep shut] in E.
      rewrite nth_error_set_eq in E by auto. cbn -[nth_error nstep shut] in E. rewrite (get_set_eq _ _ _ _ Kg) in E.
      destruct (kl && os_alive (owith_cons o (set_nth c (Some (OCons kp [] false true kl)) (os_cons o)))).
      * cbn -[nth_error nstep shut] in E. rewrite nth_error_set_eq in E by (rewrite set_nth_length; auto).
        cbn -[nth_error nstep shut] in E. rewrite (get_set_eq _ _ _ _ Kg) in E. rewrite Nt in E. cbn -[nth_error nstep shut] in E. apply LK in E as (E & _). cbn in E.
        apply (f_equal (@length _)) in E. rewrite app_length in E. cbn in E. lia.
      * cbn -[nth_error nstep shut] in E. rewrite nth_error_set_eq in E by (rewrite set_nth_length; auto).
        cbn -[nth_error nstep shut] in E. rewrite set_set, (get_set_eq _ _ _ _ Kg) in E. cbn -[nth_error nstep shut] in E. rewrite Nt in E. cbn -[nth_error nstep shut] in E. apply LK in E as (E & _). cbn in E.
        apply (f_equal (@length _)) in E. rewrite app_length in E. cbn in E. lia.
  Qed.

  (** What is still open comes from a source that is. *)
  Lemma open_source n path b b0 hs : chain tr (LS s) (HS s) n path b b0 hs -> In (path, b) (given n tr) -> ~ closedb C b ->
    ~ was_ended tr b0 /\ forall h, In h hs -> ~ was_cut tr h.
  Proof.
    induction 1 as [n path b x I E|a c pre n add suf b b0 hs I Ia Ch IH|h a c pre r t b b1 b0 hs E Ig Ch IH]; intros Ip Cl.
    - split; [|intros h []]. intros W. apply (t_end _ _ T) in W as (_ & W). auto.
    - auto.
    - destruct (hop_at _ _ _ _ _ E) as (p & Hp & _ & Ea & Ec & Ep & Er & Ok & On & Cu). subst a c pre r.
      assert (Nc : hp_open p = true). { destruct (hp_open p) eqn:Op; auto. exfalso. apply Cl. eapply rest_cut; eauto. }
      destruct (rest_open h p Hp Nc Ok On) as (Lf & Ov & W & _ & Tk).
      destruct (h1_travel _ _ _ _ On Lf t) as (pr & pp & X1 & X2 & X3 & X4). specialize (X4 Ov). rewrite W in X2. cbn in X2. inversion X2; subst.
      assert (Lv : pp = Live).
      { destruct pp; auto; cbn in X1.
        - exfalso. apply X1. apply (in_map fst) in Ip. exact Ip.
        - exfalso. apply Cl. apply (h1_shut _ _ _ _ On Lf t); auto. apply X1. }
      subst pp. cbn in X4. apply in_map_iff in X4 as ([t' b2] & Et & I2). cbn in Et. subst t'.
      pose proof (ho_tasks _ _ _ _ _ Ok _ I2) as I3. pose proof (NoDup_fst_in _ _ _ _ (h1_got _ _ _ _ On) Ig I3) as <-.
      destruct IH as (A & B); [apply (ho_got _ _ _ _ _ Ok); exact Ig|eapply Tk; eauto|]. split; auto.
      intros h' [<-|I]; auto. rewrite <- Cu. congruence.
  Qed.

  Lemma nodup_src n : mine_of s n -> NoDup (map fst (given n tr)).
  Proof. intros M. apply One, (t_origin _ _ T), M. Qed.

  (** A forwarding task has forwarded everything open. *)
  Lemma link_done a c pre b add : In (a, c, pre, b, add) (LS s) -> NoDup (map fst (given a tr)) ->
    forall suf x, In (pre ++ suf, x) (given a tr) -> ~ closedb C x -> In (add ++ suf, x) (given b tr).
  Proof.
    intros I Nd suf x Ix Cl. apply in_map_iff in I as (l & E & I). unfold lstat in E. injection E as <- <- <- <- <-.
    pose proof (n_links _ _ _ _ _ _ _ N l I) as Ok. apply In_nth_error in I as (k & Hk). destruct (lk_over l) eqn:Ov.
    - exfalso. destruct (lo_src _ _ _ _ _ Ok) as (o & _ & Q). rewrite Ov in Q. destruct Q as (_ & Q & _). apply Cl. apply (Q _ Ix).
    - destruct (rest_task k l Hk Ov) as (o & kk & Ho & Tr & Kg & U & Hd). destruct Tr as (k2 & K2 & _ & _ & _ & Q). assert (k2 = kk) by congruence. subst k2.
      destruct (Q Nd) as (_ & Q2). specialize (Q2 _ _ Ix Cl). rewrite U, app_nil_r in Q2.
      destruct (lo_seen _ _ _ _ _ Ok _ _ Q2) as [Z|Z]; [congruence|exact Z].
  Qed.

  Lemma comes_open n path b0 hs : comes tr n path b0 hs -> ~ was_ended tr b0 -> (forall h, In h hs -> ~ was_cut tr h) ->
    mine_of s n /\ exists b, In (path, b) (given n tr) /\ ~ closedb C b.
  Proof.
    induction 1 as [n path b x I E|o a p n q b hs Co IH Le]; intros Ne Nc.
    - destruct (t_pub _ _ T _ _ _ _ I E) as (A & B & M). split; auto. exists b. split; auto. intros Cl. apply Ne, (t_end _ _ T). auto.
    - destruct IH as (M & x & Ix & Cl); auto; [intros h I; apply Nc, in_or_app; auto|]. inversion Le; subst.
      + destruct (t_link' _ _ T _ _ _ _ _ _ H H0) as (c & Il). split.
        * apply in_map_iff in Il as (l & E & I). unfold lstat in E. injection E as _ _ _ <- _. apply (n_ldst _ _ _ _ _ _ _ N l I).
        * exists x. split; auto. eapply link_done; eauto. apply nodup_src. auto.
      + destruct (t_made _ _ T _ _ _ _ _ _ _ H H0) as (c & r & Hh & Il).
        destruct (hop_at _ _ _ _ _ Hh) as (p & Hp & Ip & Ea & Ec & Ep & Er & Ok & On & Cu). subst a c pre r.
        assert (Op : hp_open p = true). { destruct (hp_open p) eqn:Op; auto. exfalso. apply (Nc h); [left; reflexivity|]. apply Cu. auto. }
        destruct (rest_open h p Hp Op Ok On) as (Lf & Ov & W & (oo & kk & Ho & Tr & Kg & U) & Tk).
        destruct Tr as (k2 & K2 & _ & _ & _ & Q). assert (k2 = kk) by congruence. subst k2.
        destruct (Q (nodup_src _ M)) as (_ & Q2). specialize (Q2 _ _ Ix Cl). rewrite U, app_nil_r in Q2.
        destruct (h1_done _ _ _ _ On Ov _ _ Q2) as [It|]; [|contradiction].
        destruct (h1_travel _ _ _ _ On Lf (hp_pre p ++ s0)) as (pr & pp & X1 & X2 & X3 & X4). specialize (X4 Ov). rewrite W in X2. cbn in X2. inversion X2; subst.
        assert (Lv : pp = Live).
        { apply (in_map fst) in It, Q2. cbn in It, Q2. destruct pp; auto; cbn in X4; tauto. }
        subst pp. destruct X1 as (b1 & L1). pose proof (ho_map _ _ _ _ _ Ok _ _ L1) as I1. pose proof (h1_map _ _ _ _ On _ _ L1) as C1.
        split.
        * apply in_map_iff in Il as (l & E & I). unfold lstat in E. injection E as _ _ _ <- _. apply (n_ldst _ _ _ _ _ _ _ N l I).
        * exists b1. split; auto. eapply link_done; eauto. apply (h1_pubs _ _ _ _ On).
  Qed.

  Lemma settled n path : origin_made tr n -> ((exists b, finds s n path b) <-> present tr n path) /\ forall b, finds s n path b -> ~ is_closed s b.
  Proof.
    intros Om. assert (M : mine_of s n) by (apply (t_origin _ _ T); exact Om).
    assert (Op : forall b, finds s n path b -> ~ is_closed s b).
    { intros b F. apply (found_active _ _ _ _ _ _ R) in F as (_ & o & Ho & L). pose proof (n_node _ _ _ _ _ _ _ N _ _ Ho) as Nd.
      change (~ closedb (sp_closed s) b). apply (node_settled _ _ _ path b Nd); auto. intros k. pose proof (Rest (SClean n k) Logic.I) as E. cbn [spstep] in E.
      unfold on_origin in E. rewrite Ho in E. destruct (ostep o (OTask k)) as [o' y]. cbn in E. apply (f_equal sp_origins) in E. cbn in E. cbn. eapply set_eq; eauto. }
    split; auto. split.
    - intros (b & F). pose proof (Op b F) as Ob. destruct (found_given _ _ _ _ _ _ R F) as (_ & I). destruct (chain_run _ _ _ R _ _ _ I) as (b0 & hs & Ch).
      destruct (open_source _ _ _ _ _ Ch I Ob) as (A & B). exists b0, hs. split; auto. apply (proj1 (chain_comes _ _ _ _ _ _ _ _ R Ch)). exact M.
    - intros (b0 & hs & Co & A & B). destruct (comes_open _ _ _ _ Co A B) as (_ & b & I & Cl). exists b. apply (found_active _ _ _ _ _ _ R). split; auto.
      destruct (nth_error (sp_origins s) n) as [o|] eqn:Ho; [|apply nth_error_None in Ho; destruct M; lia]. exists o. split; auto.
      eapply node_open; eauto. apply (n_node _ _ _ _ _ _ _ N _ _ Ho).
  Qed.
End Run.

Lemma closed_why ops s tr n path b : sprun spread_new ops = (s, tr) -> once tr -> origin_made tr n -> In (path, b) (given n tr) -> is_closed s b ->
  exists b0 hs, comes tr n path b0 hs /\ (was_ended tr b0 \/ exists h, In h hs /\ was_cut tr h).
Proof.
  intros R One M I Cl. destruct (chain_run _ _ _ R _ _ _ I) as (b0 & hs & Ch). exists b0, hs. split.
  - apply (proj1 (chain_comes _ _ _ _ _ _ _ _ R Ch)). apply (t_origin _ _ (told_run _ _ _ R)). exact M.
  - eapply closed_cause; eauto.
Qed.
