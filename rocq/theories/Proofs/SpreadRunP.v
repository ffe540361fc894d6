(** Every step of the network preserves what SpreadNetP.v states: tasks and loops. *)
From Coq Require Import NArith ZArith List Lia Bool Permutation.
From Coq Require Import Init.Byte Strings.Byte.
From Coq Require Import ZifyBool ZifyNat ZifyN.
From Verif.Model Require Import OriginSys Base Coding Message ErrorCode Stream Frame FrameSys Map Publisher ReceiverSys Spread.
From Verif.Spec Require Import OriginSpec SpreadSpec.
From Verif.Proofs Require Import TableP MapP BroadcastP OriginP OriginTop RelaySysP ReceiverP SpreadP SpreadFrameP SpreadTurnP SpreadRecvP SpreadNetP SpreadStepP SpreadInvP.
Import ListNotations.
Open Scope nat_scope.
Lemma set_set {A} k (x y : A) l : set_nth k x (set_nth k y l) = set_nth k x l.
Proof. revert k; induction l as [|z l IH]; intros [|k]; cbn; auto. f_equal. auto. Qed.
Lemma set_same {A} k (x : A) l : nth_error l k = Some x -> set_nth k x l = l.
Proof. revert k; induction l as [|z l IH]; intros [|k]; cbn; try discriminate; [intros [= ->]; auto|]. intros H. f_equal. auto. Qed.
#[local] Arguments put : simpl never.
#[local] Arguments remove : simpl never.
#[local] Arguments lookup : simpl never.
#[local] Arguments set_nth : simpl never.

Lemma dead_tasks o : os_alive o = false -> forall k, get (os_tasks o) k = None.
Proof. intros A k. destruct (get (os_tasks o) k) eqn:E; auto. apply alive_task in E. congruence. Qed.

Lemma tracks_same C P G o o' c pre w k k' : get (os_cons o) c = Some k -> get (os_cons o') c = Some k' ->
  oc_prefix k' = oc_prefix k -> oc_updates k' = oc_updates k -> oc_recv k' = oc_recv k -> tracks C P G o c pre w -> tracks C P G o' c pre w.
Proof.
  intros K K' E1 E2 E3 (k0 & K0 & T). assert (k0 = k) by congruence. subst k0. exists k'. rewrite E1, E2, E3. split; [exact K'|exact T].
Qed.

Lemma quiet_pubs ops : forall o o' ev, orun o ops = (o', ev) -> Forall (fun op => exists d, op = OPop d \/ op = ORecv d \/ op = OCDrop d) ops -> flat_map pub_of ev = [].
Proof.
  induction ops as [|op ops IH]; intros o o' ev R F; cbn [orun] in R; [injection R as <- <-; auto|].
  destruct (ostep o op) as [o1 x] eqn:B. destruct (orun o1 ops) as [o2 t] eqn:R2. injection R as <- <-. cbn [flat_map].
  rewrite (IH _ _ _ R2 (Forall_inv_tail F)). destruct (Forall_inv F) as (e & [->|[->| ->]]); destruct x; reflexivity.
Qed.

Section Step.
  Context (s : spread) (P : pubs_fn) (G : got_fn) (N : net_s s P G).
  Let os := sp_origins s.
  Let C := sp_closed s.

  Lemma alive_same o t : os_alive (owith_cons o t) = os_alive o.
  Proof. reflexivity. Qed.

  (** A forwarding task uses its own consumer. *)
  Lemma link_use k src c pre dst add wait wait' hold' (over' : bool) ops o o' ev :
    nth_error (sp_links s) k = Some (Link src c pre dst add wait None false) ->
    nth_error os src = Some o -> orun o ops = (o', ev) -> Forall calm ops -> Forall (fun op => exists d, op = OPop d \/ op = ORecv d \/ op = OCDrop d) ops ->
    (forall d, d <> c -> Forall (fun op => touches_cons d op = false) ops) ->
    os_prods o' = os_prods o ->
    ((exists k, get (os_cons o') 0 = Some k) \/ os_alive o = false \/ get (os_cons o) 0 = None) ->
    (let G1 := G src c ++ got c ev in
      (if over' then os_alive o' = false /\ hold' = None else tracks C (P src) G1 o' c pre wait') /\
      (forall suf b, In (suf, b) (got c ev) -> hold' = Some (suf, b)) /\
      (forall suf b, hold' = Some (suf, b) -> In (suf, b) G1 /\ wait' = false)) ->
    let d := map (fun e => (src, e)) ev in
    net_s (with_link s k (set_nth src o' os) (Link src c pre dst add wait' hold' over')) (Pd d P) (Gd d G).
  Proof.
    intros Hk H R F Ty T EP E0 (K1 & K2 & K3) d.
    assert (Il : In (Link src c pre dst add wait None false) (sp_links s)) by (eapply nth_error_In; eauto).
    pose proof (n_links _ _ _ _ _ _ _ N _ Il) as [(a & A & Tr) Se Ho]. cbn [lk_src lk_cons lk_pre lk_dst lk_add lk_wait lk_hold lk_over] in *.
    assert (a = o) by (unfold os in *; congruence). subst a.
    pose proof (n_node _ _ _ _ _ _ _ N _ _ H) as Nd.
    assert (Epub : flat_map pub_of ev = []).
    { eapply quiet_pubs; eauto. }
    pose proof (moves_d os P G src o o' ops ev H R F) as M. fold d in M.
    assert (HP : forall m, Pd d P m = P m).
    { intros m. destruct M as (_ & _ & _ & HP & _). rewrite HP, Epub. destruct (Nat.eqb m src); apply app_nil_r. }
    assert (HG : Gd d G src c = G src c ++ got c ev) by (destruct M as (_ & _ & _ & _ & HG); rewrite HG, Nat.eqb_refl; reflexivity).
    assert (L : src < length os) by (apply nth_error_Some; congruence).
    unfold net_s, with_link, sp_closed. cbn [sp_origins sp_links sp_hops sp_mine].
    rewrite (closed_set os src o o' H (run_closed _ _ _ _ R F)). fold os. change (match os with a :: _ => os_closed a | [] => [] end) with C.
    eapply (act_link _ _ _ _ _ _ _ _ _ _ _ _ _ _ N M); [exact Hk|reflexivity| | |rewrite EP; auto|].
    - split; cbn [lk_src lk_cons lk_pre lk_dst lk_add lk_wait lk_hold lk_over]; rewrite ?HP, ?HG.
      + exists o'. split; [apply nth_error_set_eq; auto|]. destruct over'; auto. destruct K1 as (Al & Hd). split; [exact Al|]. split; [|exact Hd].
        intros x Ix. apply In_nth_error in Ix as (j & J). pose proof (node_run _ _ _ _ _ _ Nd R F) as Nd'. rewrite Epub, app_nil_r in Nd'.
        eapply (nd_done _ _ _ Nd'); [|exact J]. apply dead_tasks. exact Al.
      + intros suf b I. apply in_app_or in I as [I|I]; [|left; eauto]. right. destruct (Se _ _ I) as [X|X]; [discriminate|exact X].
      + intros suf b I. auto.
    - intros d' Nc. apply T. intros ->. apply Nc. reflexivity.
    - intros p Ip E. split; [exact Epub|]. intros (X & Y). rewrite EP. split; auto. destruct E0 as [Z|[Z|Z]]; auto.
      + exfalso. apply alive_prod in X. congruence.
      + exfalso. destruct Y. congruence.
  Qed.

  Lemma link_step k s' x : spstep s (SStep k) = (s', x) -> net_s s' (Pd (so_did x) P) (Gd (so_did x) G).
  Proof.
    cbn [spstep]. destruct (nth_error (sp_links s) k) as [[src c pre dst add wait hold []]|] eqn:Hk;
      try (intros [= <- <-]; apply net_nil; exact N).
    assert (Il : In (Link src c pre dst add wait hold false) (sp_links s)) by (eapply nth_error_In; eauto).
    pose proof (n_links _ _ _ _ _ _ _ N _ Il) as Lk. pose proof Lk as [(o & H & Tr) Se Ho]. cbn [lk_src lk_cons lk_pre lk_dst lk_add lk_wait lk_hold lk_over] in *.
    pose proof (n_node _ _ _ _ _ _ _ N _ _ H) as Nd.
    pose proof Tr as (kk & Kg & Kp & Kr & T1 & _).
    destruct hold as [[suf b]|].
    - (* publish *)
      destruct (Ho _ _ eq_refl) as (Ig & _). pose proof (n_ldst _ _ _ _ _ _ _ N _ Il) as Od. cbn in Od.
      destruct (nth_error (sp_origins s) dst) as [q|] eqn:Hq; [|apply nth_error_None in Hq; destruct Od; lia].
      destruct (ostep q (OPublish 0 (add ++ suf) b)) as [q' y] eqn:B. rewrite (on_some _ _ _ _ _ _ Hq B). intros [= <- <-].
      pose proof (n_node _ _ _ _ _ _ _ N _ _ Hq) as Ndq. pose proof (n_prod _ _ _ _ _ _ _ N _ _ Od Hq) as Pr.
      assert (Lb : b < length (os_closed q)).
      { rewrite (nd_closed _ _ _ Ndq). apply (nd_bound _ _ _ Nd (pre ++ suf, b)). apply T1. apply in_or_app. auto. }
      destruct (publish_fields _ _ _ _ _ _ B Pr Lb) as (_ & Fc & _ & Fp & Fy).
      assert (M : moves os P (Pd [(dst, (OPublish 0 (add ++ suf) b, y))] P) G (Gd [(dst, (OPublish 0 (add ++ suf) b, y))] G) dst q q' [OPublish 0 (add ++ suf) b] [(OPublish 0 (add ++ suf) b, y)]).
      { apply (moves_d os P G dst q q' [OPublish 0 (add ++ suf) b] [(OPublish 0 (add ++ suf) b, y)]); auto; [cbn [orun]; rewrite B; reflexivity|repeat constructor]. }
      unfold net_s, with_link, sp_closed. cbn [sp_origins sp_links sp_hops sp_mine fine so_did].
      fold os. rewrite (closed_set os dst q q' Hq Fc). change (match os with a :: _ => os_closed a | [] => [] end) with C.
      assert (Lk' : link_ok C (set_nth dst q' os) (Pd [(dst, (OPublish 0 (add ++ suf) b, y))] P) (Gd [(dst, (OPublish 0 (add ++ suf) b, y))] G) (Link src c pre dst add wait (Some (suf, b)) false)).
      { eapply (frame_link _ _ _ _ _ _ _ _ _ _ _ _ _ _ _ N M Il). repeat constructor. }
      eapply (act_link _ _ _ _ _ _ _ _ _ _ _ _ _ _ N M); [exact Hk|reflexivity| | |rewrite Fp; auto|].
      + destruct Lk' as [Q1 Q2 Q3]. cbn [lk_src lk_cons lk_pre lk_dst lk_add lk_wait lk_hold lk_over] in *.
        split; cbn [lk_src lk_cons lk_pre lk_dst lk_add lk_wait lk_hold lk_over]; auto; [|discriminate].
        intros suf0 b0 I0. right. destruct (Q2 _ _ I0) as [[= <- <-]|X]; auto.
        unfold Pd, at_n. cbn. rewrite Nat.eqb_refl, Fy. cbn. apply in_or_app. right. left. reflexivity.
      + intros c' _. repeat constructor.
      + intros p Ip E. exfalso. destruct Od as (_ & Od). apply (Od p Ip). congruence.
    - destruct kk as [kp u tok rcv l]. cbn in Kp, Kr. subst kp rcv. destruct wait.
      + (* woken? *)
        assert (B : ostep o (ORecv c) =
          if tok then (owith_cons o (set_nth c (Some (OCons pre u false false l)) (os_cons o)), OWoken)
          else if l && os_alive o then (o, OWaits)
          else (owith_cons o (set_nth c (Some (OCons pre u false false l)) (os_cons o)), ODone)) by (cbn; rewrite Kg; reflexivity).
        set (o1 := owith_cons o (set_nth c (Some (OCons pre u false false l)) (os_cons o))) in *.
        assert (K1 : get (os_cons o1) c = Some (OCons pre u false false l)) by (cbn; eapply get_set_some; eauto).
        assert (E0 : (exists k0, get (os_cons o1) 0 = Some k0) \/ get (os_cons o) 0 = None).
        { destruct (Nat.eq_dec c 0) as [->|Nc]; [left; eauto|]. cbn. rewrite get_set_ne by auto. destruct (get (os_cons o) 0); eauto. }
        destruct tok.
        * rewrite (on_some _ _ _ _ _ _ H B). intros [= <- <-].
          apply (link_use k src c pre dst add true false None false [ORecv c] o o1 [(ORecv c, OWoken)]); auto.
          -- cbn [orun]. rewrite B. reflexivity.
          -- repeat constructor.
          -- repeat constructor. exists c. auto.
          -- intros d Nd1. repeat constructor. cbn. apply Nat.eqb_neq. auto.
          -- destruct E0 as [E0|E0]; auto.
          -- cbn [got flat_map got_of app]. rewrite app_nil_r. split; [|split; [intros ? ? []|discriminate]].
             pose proof (tracks_step _ _ _ _ _ _ _ _ _ _ _ Nd B Tr K1) as T'. cbn in T'. rewrite !app_nil_r in T'. exact T'.
        * destruct (l && os_alive o) eqn:Al.
          -- rewrite (on_some _ _ _ _ _ _ H B). intros [= <- <-].
             apply (link_use k src c pre dst add true true None false [ORecv c] o o [(ORecv c, OWaits)]); auto.
             ++ cbn [orun]. rewrite B. reflexivity.
             ++ repeat constructor.
             ++ repeat constructor. exists c. auto.
             ++ intros d Nd1. repeat constructor. cbn. apply Nat.eqb_neq. auto.
             ++ destruct (get (os_cons o) 0); eauto.
             ++ cbn [got flat_map got_of app]. rewrite app_nil_r. split; [|split; [intros ? ? []|discriminate]]. exact Tr.
          -- assert (Dead : os_alive o = false).
             { destruct l; [exact Al|]. apply (v_unlinked _ (nd_owf _ _ _ Nd) _ _ Kg). reflexivity. }
             rewrite (on_some _ _ _ _ _ _ H B).
             assert (B2 : ostep o1 (OCDrop c) = (owith_cons o1 (set_nth c None (os_cons o1)), OUnit)) by (cbn [ostep]; rewrite K1; reflexivity).
             set (o2 := owith_cons o1 (set_nth c None (os_cons o1))) in *.
             assert (H1 : nth_error (set_nth src o1 (sp_origins s)) src = Some o1) by (apply nth_error_set_eq, nth_error_Some; congruence).
             rewrite (on_some _ _ _ _ _ _ H1 B2), set_set. intros [= <- <-].
             apply (link_use k src c pre dst add true false None true [ORecv c; OCDrop c] o o2 [(ORecv c, ODone); (OCDrop c, OUnit)]); auto.
             ++ cbn [orun]. rewrite B, B2. reflexivity.
             ++ repeat constructor.
             ++ repeat constructor; exists c; auto.
             ++ intros d Nd1. repeat constructor; cbn; apply Nat.eqb_neq; auto.
             ++ cbn [got flat_map got_of app]. split; [|split; [intros ? ? []|discriminate]]. split; auto.
      + (* pop *)
        assert (B : ostep o (OPop c) = match u with
          | (suffix, b) :: u => (owith_cons o (set_nth c (Some (OCons pre u tok false l)) (os_cons o)), OGot suffix b)
          | [] => (owith_cons o (set_nth c (Some (OCons pre [] tok true l)) (os_cons o)), OEmpty)
          end) by (cbn; rewrite Kg; reflexivity).
        assert (E0 : forall k1, (exists k0, get (set_nth c (Some k1) (os_cons o)) 0 = Some k0) \/ get (os_cons o) 0 = None).
        { intros k1. destruct (Nat.eq_dec c 0) as [->|Nc]; [left; eexists; eapply get_set_some; eauto|]. rewrite get_set_ne by auto. destruct (get (os_cons o) 0); eauto. }
        destruct u as [|[suf b] u]; rewrite (on_some _ _ _ _ _ _ H B); intros [= <- <-].
        * set (o1 := owith_cons o (set_nth c (Some (OCons pre [] tok true l)) (os_cons o))) in *.
          assert (K1 : get (os_cons o1) c = Some (OCons pre [] tok true l)) by (cbn; eapply get_set_some; eauto).
          apply (link_use k src c pre dst add false true None false [OPop c] o o1 [(OPop c, OEmpty)]); auto.
          -- cbn [orun]. rewrite B. reflexivity.
          -- repeat constructor.
          -- repeat constructor. exists c. auto.
          -- intros d Nd1. repeat constructor. cbn. apply Nat.eqb_neq. auto.
          -- destruct (E0 (OCons pre [] tok true l)) as [X|X]; auto.
          -- cbn [got flat_map got_of app]. rewrite app_nil_r. split; [|split; [intros ? ? []|discriminate]].
             pose proof (tracks_step _ _ _ _ _ _ _ _ _ _ _ Nd B Tr K1) as T'. cbn in T'. rewrite !app_nil_r in T'. exact T'.
        * set (o1 := owith_cons o (set_nth c (Some (OCons pre u tok false l)) (os_cons o))) in *.
          assert (K1 : get (os_cons o1) c = Some (OCons pre u tok false l)) by (cbn; eapply get_set_some; eauto).
          apply (link_use k src c pre dst add false false (Some (suf, b)) false [OPop c] o o1 [(OPop c, OGot suf b)]); auto.
          -- cbn [orun]. rewrite B. reflexivity.
          -- repeat constructor.
          -- repeat constructor. exists c. auto.
          -- intros d Nd1. repeat constructor. cbn. apply Nat.eqb_neq. auto.
          -- destruct (E0 (OCons pre u tok false l)) as [X|X]; auto.
          -- cbn [got flat_map got_of app]. rewrite Nat.eqb_refl. cbn [app]. split; [|split].
             ++ pose proof (tracks_step _ _ _ _ _ _ _ _ _ _ _ Nd B Tr K1) as T'. cbn in T'. rewrite Nat.eqb_refl, !app_nil_r in T'. exact T'.
             ++ intros suf0 b0 [[= <- <-]|[]]. reflexivity.
             ++ intros suf0 b0 [= <- <-]. split; auto. apply in_or_app. right. left. reflexivity.
  Qed.

  (** The publishing loop uses its own consumer. *)
  Lemma hop_use h p p' ops o o' ev : nth_error (sp_hops s) h = Some p -> htri p' = htri p ->
    nth_error os (hp_src p) = Some o -> orun o ops = (o', ev) -> Forall calm ops ->
    (forall d, d <> hp_cons p -> Forall (fun op => touches_cons d op = false) ops) -> os_prods o' = os_prods o ->
    let d := map (fun e => (hp_src p, e)) ev in
    hop_ok C (set_nth (hp_src p) o' os) (Pd d P) (Gd d G) p' ->
    net_s (with_hop s h (set_nth (hp_src p) o' os) p') (Pd d P) (Gd d G).
  Proof.
    intros Hh E H R F T EP d Ok. pose proof (moves_d os P G (hp_src p) o o' ops ev H R F) as M. fold d in M.
    unfold net_s, with_hop, sp_closed. cbn [sp_origins sp_links sp_hops sp_mine].
    rewrite (closed_set os (hp_src p) o o' H (run_closed _ _ _ _ R F)). fold os. change (match os with a :: _ => os_closed a | [] => [] end) with C.
    apply (act_hop _ _ _ _ _ _ _ _ _ _ _ _ _ _ N M h p p'); auto. rewrite EP. auto.
  Qed.

  Lemma hop_step h j ks s' x : spstep s (STurn h j ks) = (s', x) -> net_s s' (Pd (so_did x) P) (Gd (so_did x) G).
  Proof.
    cbn [spstep]. destruct (nth_error (sp_hops s) h) as [[src c pre dst a wire m lf runs open]|] eqn:Hh;
      [|intros [= <- <-]; apply net_nil; exact N].
    destruct (an_over a) eqn:Ov; [intros [= <- <-]; apply net_nil; exact N|].
    set (p := Hop src c pre dst a wire m lf runs open) in *.
    assert (Ip : In p (sp_hops s)) by (eapply nth_error_In; eauto).
    pose proof (n_hops _ _ _ _ _ _ _ N _ Ip) as Ok. pose proof (n_hsrc _ _ _ _ _ _ _ N _ Ip) as (Ls & Ds).
    assert (Ne : src <> dst) by (intros E; apply (Ds p Ip); cbn; congruence).
    destruct (ho_src _ _ _ _ _ Ok) as (o & H & Tr). specialize (Tr Ov). cbn in H, Tr.
    destruct (ho_ann _ _ _ _ _ Ok) as (A1 & A2 & A3). cbn in A1, A2, A3.
    destruct a as [aq ag ac aa at_ ao]. cbn in A1, A2, A3, Ov. subst aq ag ac ao.
    pose proof (n_node _ _ _ _ _ _ _ N _ _ H) as Nd.
    pose proof Tr as (kk & Kg & Kp & Kr & T1 & _). destruct kk as [kp u tok rcv l]. cbn in Kp, Kr. subst kp rcv.
    cbn [knowing an_queue an_gone an_closed an_active an_tasks an_over].
    destruct open.
    - assert (B : ostep o (OPop c) = match u with
          | (suffix, b) :: u => (owith_cons o (set_nth c (Some (OCons pre u tok false l)) (os_cons o)), OGot suffix b)
          | [] => (owith_cons o (set_nth c (Some (OCons pre [] tok true l)) (os_cons o)), OEmpty)
          end) by (cbn; rewrite Kg; reflexivity).
      destruct u as [|[suf b] u].
      + rewrite (on_some _ _ _ _ _ _ H B).
        set (o1 := owith_cons o (set_nth c (Some (OCons pre [] tok true l)) (os_cons o))) in *.
        assert (K1 : get (os_cons o1) c = Some (OCons pre [] tok true l)) by (cbn; eapply get_set_some; eauto).
        assert (H1 : nth_error (set_nth src o1 (sp_origins s)) src = Some o1) by (apply nth_error_set_eq; auto).
        set (o2 := owith_cons o1 (set_nth c (Some (OCons pre [] false false l)) (os_cons o1))).
        assert (B2 : ostep o1 (ORecv c) = if tok then (o2, OWoken) else if l && os_alive o1 then (o1, OWaits) else (o2, ODone)) by (cbn [ostep]; rewrite K1; destruct tok; reflexivity).
        assert (K2 : get (os_cons o2) c = Some (OCons pre [] false false l)) by (cbn; eapply get_set_some; eauto).
        (* the consumer is as it was *)
        assert (Q : forall ops o3 ev k3, orun o ops = (o3, ev) -> Forall calm ops -> (forall d, d <> c -> Forall (fun op => touches_cons d op = false) ops) ->
                  os_prods o3 = os_prods o -> get (os_cons o3) c = Some (OCons pre [] k3 false l) -> flat_map pub_of ev = [] -> (forall d, got d ev = []) ->
                  let d := map (fun e => (src, e)) ev in hop_ok C (set_nth src o3 os) (Pd d P) (Gd d G) p).
        { intros ops o3 ev k3 R F T EP K3 E1 E2 d.
          eapply (turn_quiet C os P (Pd d P) G (Gd d G) p o o3 ops ev); eauto.
          - intros G0 Tk. eapply (tracks_same _ _ _ o o3 c pre false); eauto.
          - intros n. unfold Pd, d. rewrite at_map. destruct (Nat.eqb n src); [rewrite E1|]; apply app_nil_r.
          - intros n e _. unfold Gd, d. rewrite at_map. destruct (Nat.eqb n src); [rewrite E2|]; apply app_nil_r. }
        destruct tok.
        * rewrite (on_some _ _ _ _ _ _ H1 B2), set_set. intros [= <- <-].
          assert (R : orun o [OPop c; ORecv c] = (o2, [(OPop c, OEmpty); (ORecv c, OWoken)])) by (cbn [orun]; rewrite B, B2; reflexivity).
          apply (hop_use h p _ [OPop c; ORecv c] o o2 [(OPop c, OEmpty); (ORecv c, OWoken)] Hh); auto; [repeat constructor|intros d Dn; repeat constructor; cbn; apply Nat.eqb_neq; auto|].
          apply (Q [OPop c; ORecv c] o2 _ false R); auto; [repeat constructor|intros d Dn; repeat constructor; cbn; apply Nat.eqb_neq; auto].
        * assert (X : exists o3 y z o4, ostep o1 (ORecv c) = (o3, y) /\ y <> OWoken /\ ostep o3 (OCancel c) = (o4, z) /\ os_prods o4 = os_prods o /\
                    get (os_cons o4) c = Some (OCons pre [] false false l)).
          { destruct (l && os_alive o1) eqn:Al.
            - exists o1, OWaits, OUnit, o2. split; [exact B2|]. split; [discriminate|]. split; [cbn [ostep]; rewrite K1; reflexivity|]. split; [reflexivity|exact K2].
            - exists o2, ODone, OBad, o2. split; [exact B2|]. split; [discriminate|]. split; [cbn [ostep]; rewrite K2; reflexivity|]. split; [reflexivity|exact K2]. }
          clear B2. destruct X as (o3 & y & z & o4 & B3 & Ny & B4 & EP & K4).
          rewrite (on_some _ _ _ _ _ _ H1 B3), set_set.
          assert (H3 : nth_error (set_nth src o3 (sp_origins s)) src = Some o3) by (apply nth_error_set_eq; auto).
          rewrite (on_some _ _ _ _ _ _ H3 B4), set_set.
          set (ops := [OPop c; ORecv c; OCancel c]). set (ev := [(OPop c, OEmpty); (ORecv c, y); (OCancel c, z)]).
          assert (R : orun o ops = (o4, ev)) by (unfold ops, ev; cbn [orun]; rewrite B, B3, B4; reflexivity).
          assert (F : Forall calm ops) by (repeat constructor).
          assert (T : forall d, d <> c -> Forall (fun op => touches_cons d op = false) ops) by (intros d Dn; repeat constructor; cbn; apply Nat.eqb_neq; auto).
          assert (Okq : let d := map (fun e => (src, e)) ev in hop_ok C (set_nth src o4 os) (Pd d P) (Gd d G) p).
          { apply (Q ops o4 ev false R F T EP K4).
            - unfold ev. cbn [flat_map]. destruct y, z; reflexivity.
            - intros d. unfold ev, got. cbn [flat_map]. destruct y, z; reflexivity. }
          cbn zeta in Okq. set (d := map (fun e => (src, e)) ev) in *.
          assert (Z : forall p', htri p' = htri p -> hop_ok C (set_nth src o4 os) (Pd d P) (Gd d G) p' ->
                    net_s (with_hop s h (set_nth src o4 os) p') (Pd d P) (Gd d G)).
          { intros p' E' Ok'. apply (hop_use h p p' ops o o4 ev Hh E' H R F); auto. }
          intros S. assert (S' : (s', x) = match nstep (Ann [] false (shut (sp_closed s)) aa at_ false) (NTurn APending j ks) with
               | (a', NSent ms) => (with_hop s h (set_nth src o4 (sp_origins s)) (Hop src c pre dst (knowing [] a') (wire ++ ms) m lf runs true), fine d)
               | _ => (with_hop s h (set_nth src o4 (sp_origins s)) (Hop src c pre dst (Ann [] false [] aa at_ false) wire m lf runs true), fine d) end).
          { rewrite <- S. destruct y; try reflexivity. congruence. }
          clear S. cbn [nstep an_over an_queue an_gone an_tasks] in S'.
          destruct (nth_error at_ j) as [[suf b]|] eqn:Hj.
          -- destruct (closed_task (Ann [] false (shut (sp_closed s)) aa at_ false) (suf, b)) eqn:Cl.
             ++ injection S' as -> ->. cbn [fine so_did]. apply Z; [reflexivity|]. cbn [knowing an_queue an_gone an_closed an_active an_tasks an_over].
                eapply (turn_ended _ _ _ _ _ _ _ _ _ _ _ _ _ _ _ j suf b); [exact Okq|exact Hj|].
                unfold closed_task in Cl. cbn in Cl. apply existsb_exists in Cl as (b' & Ib & E). apply Nat.eqb_eq in E. subst b'.
                unfold shut in Ib. apply filter_In in Ib. destruct Ib as (_ & Ib). exact Ib.
             ++ destruct (existsb _ at_); injection S' as -> ->; apply Z; auto.
          -- destruct (existsb _ at_); injection S' as -> ->; apply Z; auto.
      + rewrite (on_some _ _ _ _ _ _ H B). cbn [nstep an_over an_queue an_gone an_tasks an_closed an_active app fst].
        intros [= <- <-].
        apply (hop_use h p _ [OPop c] o _ [(OPop c, OGot suf b)] Hh); auto; [cbn [orun]; rewrite B; reflexivity|repeat constructor|intros d Dn; repeat constructor; cbn; apply Nat.eqb_neq; auto|].
        cbn [knowing an_queue an_gone an_closed an_active an_tasks an_over map hp_src p].
        eapply (turn_got C os P _ G _ src c pre dst aa at_ wire m lf runs true o _ suf b); [exact Ok|exact H|exact Nd|exact B|exact Ne| |].
        * intros n. unfold Pd. cbn. destruct (Nat.eqb src n); apply app_nil_r.
        * intros n d. unfold Gd. cbn. rewrite (Nat.eqb_sym src n). destruct (Nat.eqb n src); [|apply app_nil_r]. cbn. rewrite (Nat.eqb_sym c d). destruct (Nat.eqb d c); auto; apply app_nil_r.
    - (* the stream failed *)
      assert (B : ostep o (OCDrop c) = (owith_cons o (set_nth c None (os_cons o)), OUnit)) by (cbn [ostep]; rewrite Kg; reflexivity).
      rewrite (on_some _ _ _ _ _ _ H B). cbn [nstep an_over fst]. intros [= <- <-].
      apply (hop_use h p _ [OCDrop c] o _ [(OCDrop c, OUnit)] Hh); auto; [cbn [orun]; rewrite B; reflexivity|repeat constructor|intros d Dn; repeat constructor; cbn; apply Nat.eqb_neq; auto|].
      cbn [knowing an_queue an_gone an_closed an_active an_tasks an_over map hp_src p].
      eapply turn_stop; [exact Ok|exact H|exact Ne|reflexivity|reflexivity|reflexivity|reflexivity|reflexivity|reflexivity| |].
      + intros n. unfold Pd. cbn. destruct (Nat.eqb src n); apply app_nil_r.
      + intros n d. unfold Gd. cbn. destruct (Nat.eqb src n); apply app_nil_r.
  Qed.
End Step.
