(** What a step closes and publishes. *)
From Coq Require Import NArith ZArith List Lia Bool Permutation.
From Coq Require Import Init.Byte Strings.Byte.
From Coq Require Import ZifyBool ZifyNat ZifyN.
From Verif.Model Require Import OriginSys Base Coding Message ErrorCode Stream Frame FrameSys Map Publisher ReceiverSys Spread.
From Verif.Spec Require Import OriginSpec SpreadSpec.
From Verif.Proofs Require Import TableP MapP BroadcastP OriginP OriginTop RelaySysP ReceiverP SpreadP SpreadFrameP SpreadTurnP SpreadRecvP SpreadNetP SpreadStepP SpreadInvP SpreadRunP SpreadAllP SpreadTraceP.
Import ListNotations.
Open Scope nat_scope.
#[local] Arguments put : simpl never.
#[local] Arguments remove : simpl never.
#[local] Arguments lookup : simpl never.
#[local] Arguments set_nth : simpl never.

Definition agree (C : list bool) (os : list osys) : Prop := (forall o, In o os -> os_closed o = C) /\ (os = [] -> C = []).
Lemma agree_head C os ls hs m : agree C os -> sp_closed (Spread os ls hs m) = C.
Proof. intros (A & B). unfold sp_closed. cbn. destruct os as [|o os]; [symmetry; auto|]. apply A. left. reflexivity. Qed.
Lemma calm_closed o op : calm op -> os_closed (fst (ostep o op)) = os_closed o.
Proof.
  intros K. destruct op; try contradiction; cbn [ostep];
    repeat (match goal with |- context [match ?y with _ => _ end] => destruct y end; cbn; auto); auto.
Qed.
Lemma agree_on C os i op : agree C os -> calm op -> agree C (fst (on_origin i op os)).
Proof.
  intros (A & B) K. unfold on_origin. destruct (nth_error os i) as [o|] eqn:E; [|split; auto].
  destruct (ostep o op) as [o' x] eqn:S. cbn. split.
  - intros q I. apply in_set_nth in I as [->|(j & _ & J)].
    + pose proof (calm_closed o op K) as Z. rewrite S in Z. cbn in Z. rewrite Z. apply A. eapply nth_error_In; eauto.
    + apply A. eapply nth_error_In; eauto.
  - intros Z. apply (f_equal (@length _)) in Z. rewrite set_nth_length in Z. apply nth_error_In in E. destruct os; [destruct E|discriminate].
Qed.

Section Step.
  Context (s : spread) (P : pubs_fn) (G : got_fn) (N : net_s s P G).
  Let C := sp_closed s.

  Lemma agrees : agree C (sp_origins s).
  Proof.
    split; [|apply (n_closed _ _ _ _ _ _ _ N)]. intros o I. apply In_nth_error in I as (n & H).
    apply (nd_closed _ _ _ (n_node _ _ _ _ _ _ _ N _ _ H)).
  Qed.

  Lemma step_closed op s' x : spstep s op = (s', x) ->
    match op with
    | SNode | SPublish _ _ _ | SUse _ _ | SLink _ _ _ _ _ | SHop _ _ _ _ _ | SClean _ _ | SStep _ | STurn _ _ _ | SClosed _ => sp_closed s' = C
    | _ => True
    end.
  Proof.
    assert (A := agrees). assert (E : forall os ls hs m, agree C os -> sp_closed (Spread os ls hs m) = C) by (intros; apply agree_head; auto).
    assert (Z : sp_closed s = C) by reflexivity.
    assert (K : forall op, calm op -> forall i os os' ev, agree C os -> on_origin i op os = (os', ev) -> agree C os').
    { intros op0 K i os os' ev Ag On. pose proof (agree_on C os i op0 Ag K) as X. rewrite On in X. exact X. }
    destruct op; cbn [spstep]; auto.
    - intros [= <- <-]. apply E. destruct A as (A1 & A2). split; [|intros Q; destruct (sp_origins s); discriminate].
      intros o I. apply in_app_or in I as [I|[<-|[]]]; auto.
    - destruct (_ && _); [|intros [= <- <-]; auto]. destruct (on_origin _ _ _) as [os ev] eqn:O. intros [= <- <-]. apply E. eapply (K (OPublish 0 path b)); eauto. exact I.
    - destruct (own s n && usable s n o) eqn:U; [|intros [= <- <-]; auto]. destruct (on_origin _ _ _) as [os ev] eqn:O. intros [= <- <-]. apply E. eapply (K o); eauto.
      apply andb_true_iff in U as (_ & U). destruct o; try discriminate; exact I.
    - destruct (_ && _); [|intros [= <- <-]; auto]. destruct (on_origin _ _ _) as [os ev] eqn:O. intros [= <- <-]. apply E. eapply (K (OConsume 0 pre ks)); eauto. exact I.
    - destruct (_ && _); [|intros [= <- <-]; auto]. destruct (on_origin _ _ _) as [os ev] eqn:O. intros [= <- <-]. apply E.
      assert (B : agree C os) by (eapply (K (OConsume 0 pre ks)); eauto; exact I). destruct B as (B1 & B2). split; [|intros Q; destruct os; discriminate].
      intros o J. apply in_app_or in J as [J|[<-|[]]]; auto.
    - destruct (on_origin _ _ _) as [os ev] eqn:O. intros [= <- <-]. apply E. eapply (K (OTask k)); eauto. exact I.
    - destruct (nth_error (sp_links s) k) as [[src c pre dst add wait hold []]|] eqn:Hk; try (intros [= <- <-]; auto; fail).
      destruct hold as [[suf b]|]; [|destruct wait].
      + destruct (on_origin _ _ _) as [os ev] eqn:O. intros [= <- <-]. apply E. eapply (K (OPublish 0 (add ++ suf) b)); eauto. exact I.
      + destruct (on_origin _ _ _) as [os ev] eqn:O. assert (B : agree C os) by (eapply (K (ORecv c)); eauto; exact I).
        destruct ev as [|[? [? []]] [|]]; try (intros [= <- <-]; apply E; auto; fail).
        destruct (on_origin src (OCDrop c) os) as [os1 ev1] eqn:O1. intros [= <- <-]. apply E. eapply (K (OCDrop c)); eauto. exact I.
      + destruct (on_origin _ _ _) as [os ev] eqn:O. assert (B : agree C os) by (eapply (K (OPop c)); eauto; exact I).
        destruct ev as [|[? [? []]] [|]]; try (intros [= <- <-]; apply E; auto; fail).
    - destruct (nth_error (sp_hops s) h) as [[src c pre dst a wire m lf runs open]|] eqn:Hh; [|intros [= <- <-]; auto].
      destruct (an_over a); [intros [= <- <-]; auto|]. cbn zeta. destruct open.
      + destruct (on_origin src (OPop c) _) as [os ev] eqn:O. assert (B : agree C os) by (eapply (K (OPop c)); eauto; exact I).
        assert (T : forall ev' (q : bool), (let (os1, ev1) := on_origin src (ORecv c) os in
                match ev1 with
                | [(_, (_, OWoken))] => (with_hop s h os1 (Hop src c pre dst (knowing [] (knowing (shut (sp_closed s)) a)) wire m lf runs true), fine (ev' ++ ev1))
                | _ =>
                    let (os2, ev2) := on_origin src (OCancel c) os1 in
                    match nstep (knowing (shut (sp_closed s)) a) (NTurn APending j ks) with
                    | (a', NSent ms) => (with_hop s h os2 (Hop src c pre dst (knowing [] a') (wire ++ ms) m lf runs true), fine (ev' ++ ev1 ++ ev2))
                    | _ => (with_hop s h os2 (Hop src c pre dst (knowing [] (knowing (shut (sp_closed s)) a)) wire m lf runs true), fine (ev' ++ ev1 ++ ev2))
                    end
                end) = (s', x) -> sp_closed s' = C).
        { intros ev' _. destruct (on_origin src (ORecv c) os) as [os1 ev1] eqn:O1. assert (B1 : agree C os1) by (eapply (K (ORecv c)); eauto; exact I).
          destruct (on_origin src (OCancel c) os1) as [os2 ev2] eqn:O2. assert (B2 : agree C os2) by (eapply (K (OCancel c)); eauto; exact I).
          assert (T2 : forall ev3, match nstep (knowing (shut (sp_closed s)) a) (NTurn APending j ks) with
                    | (a', NSent ms) => (with_hop s h os2 (Hop src c pre dst (knowing [] a') (wire ++ ms) m lf runs true), fine ev3)
                    | _ => (with_hop s h os2 (Hop src c pre dst (knowing [] (knowing (shut (sp_closed s)) a)) wire m lf runs true), fine ev3)
                    end = (s', x) -> sp_closed s' = C).
          { intros ev3. destruct (nstep _ _) as [a' []]; intros [= <- <-]; apply E; auto. }
          destruct ev1 as [|[? [? []]] [|]]; try apply T2. intros [= <- <-]. apply E. auto. }
        destruct ev as [|[? [? []]] [|]]; try (apply (T _ true)).
        destruct (nstep (fst _) _) as [a' []]; intros [= <- <-]; auto; apply E; auto.
      + destruct (on_origin _ _ _) as [os ev] eqn:O. intros [= <- <-]. apply E. eapply (K (OCDrop c)); eauto. exact I.
    - intros [= <- <-]. auto.
  Qed.

  (** A receiving loop closes only broadcasts of its own. *)
  Lemma receive_closed h p p1 op s' y : nth_error (sp_hops s) h = Some p -> receive s h p1 op = (s', y) -> hp_dst p1 = hp_dst p ->
    hp_map p1 = hp_map p -> hp_left p1 = hp_left p -> hp_runs p1 = hp_runs p -> hp_open p1 = hp_open p ->
    (forall r rs x, nth_error (sp_origins s) (hp_dst p) = Some r -> node C (P (hp_dst p)) r -> hop_ok C (sp_origins s) P G p -> hp_src p <> hp_dst p -> rstep (the_loop p r) op = (rs, x) ->
       exists pubs, received C (P (hp_dst p)) r (rv_origin rs) pubs /\ forall t b, In (t, b) pubs -> length C <= b) ->
    grows C (sp_closed s') /\ forall b, In b (sp_mine s) -> closedb (sp_closed s') b -> closedb C b.
  Proof.
    intros Hh R D1 D2 D3 D4 D5 X. destruct (hop_facts s P G N h p Hh) as (Ok & (r & Hr & Nd) & Ne).
    unfold receive in R. rewrite D1, Hr, D2, D3, D4, D5 in R. destruct (rstep _ op) as [rs x] eqn:Q. injection R as <- <-.
    destruct (X r rs x Hr Nd Ok Ne Q) as (pubs & Rc & Fr).
    assert (Ec : sp_closed (everywhere (os_closed (rv_origin rs)) (with_hop s h (set_nth (hp_dst p) (rv_origin rs) (sp_origins s))
       (Hop (hp_src p1) (hp_cons p1) (hp_pre p1) (hp_dst p) (hp_ann p1) (hp_wire p1) (rv_map rs) (rv_over rs) (rv_bcasts rs) (rv_session rs)))) = os_closed (rv_origin rs)).
    { unfold everywhere, sp_closed, with_hop. cbn. destruct (set_nth (hp_dst p) (rv_origin rs) (sp_origins s)) eqn:E; [|reflexivity]. exfalso.
      apply (f_equal (@length _)) in E. rewrite set_nth_length in E. apply nth_error_In in Hr. destruct (sp_origins s); [destruct Hr|discriminate]. }
    rewrite Ec. split; [apply (rc_grows _ _ _ _ _ Rc)|]. intros b M Cl. destruct (rc_own _ _ _ _ _ Rc b Cl) as [Q2|(t & I)]; auto. exfalso.
    destruct (n_mine _ _ _ _ _ _ _ N b M) as (L & No). apply in_app_or in I as [I|I].
    - eapply No; eauto. eapply nth_error_In; eauto.
    - apply Fr in I. unfold C in I. lia.
  Qed.

  Lemma step_mine op s' x : spstep s op = (s', x) ->
    grows C (sp_closed s') /\ forall b, In b (sp_mine s) -> (closedb (sp_closed s') b <-> closedb C b \/ (op = SEnd b /\ so_ok x = true)).
  Proof.
    intros S. pose proof (step_closed op s' x S) as K.
    assert (T : sp_closed s' = C -> (forall b, op <> SEnd b) -> grows C (sp_closed s') /\ forall b, In b (sp_mine s) -> (closedb (sp_closed s') b <-> closedb C b \/ (op = SEnd b /\ so_ok x = true))).
    { intros -> D. split; [apply grows_refl|]. intros b _. split; auto. intros [?|(E & _)]; auto. exfalso. eapply D; eauto. }
    assert (T2 : (forall b, op <> SEnd b) -> grows C (sp_closed s') /\ (forall b, In b (sp_mine s) -> closedb (sp_closed s') b -> closedb C b) ->
       grows C (sp_closed s') /\ forall b, In b (sp_mine s) -> (closedb (sp_closed s') b <-> closedb C b \/ (op = SEnd b /\ so_ok x = true))).
    { intros D (A & B). split; auto. intros b M. split; [eauto|]. intros [Q|(E & _)]; [|exfalso; eapply D; eauto]. apply A. auto. }
    destruct op; try (apply T; [exact K|discriminate]); cbn [spstep] in S.
    - destruct (sp_origins s) as [|o os] eqn:E; [injection S as <- <-; apply T; [reflexivity|discriminate]|]. apply T2; [discriminate|]. injection S as <- <-.
      assert (Q : sp_closed (Spread (sp_origins (everywhere (sp_closed s ++ [false]) s)) (sp_links s) (map (with_runs (length (sp_closed s ++ [false]))) (sp_hops s)) (sp_mine s ++ [length (sp_closed s)])) = sp_closed s ++ [false]).
      { unfold sp_closed at 1. cbn. rewrite E. reflexivity. }
      cbn in Q |- *. rewrite Q. split; [apply grows_snoc|]. intros b _. rewrite closedb_snoc. auto.
    - destruct (existsb (Nat.eqb b) (sp_mine s)) eqn:M.
      + injection S as <- <-. apply existsb_exists in M as (b' & M & Eb). apply Nat.eqb_eq in Eb. subst b'.
        destruct (n_mine _ _ _ _ _ _ _ N b M) as (L & _).
        assert (Q : sp_closed (everywhere (set_nth b true (sp_closed s)) s) = set_nth b true (sp_closed s)).
        { unfold everywhere, sp_closed at 1. cbn. destruct (sp_origins s) eqn:E; [|reflexivity]. exfalso. pose proof (n_closed _ _ _ _ _ _ _ N E) as Z. rewrite Z in L. cbn in L. lia. }
        rewrite Q. split; [apply grows_set|]. intros b1 M1. rewrite closedb_set. split; intros [H|H]; auto.
        * destruct H as (-> & _). right. auto.
        * destruct H as ([= ->] & _). right. auto.
      + injection S as <- <-. split; [apply grows_refl|]. intros b1 M1. split; auto. intros [H|(_ & H)]; auto. discriminate.
    - destruct (nth_error (sp_hops s) h) as [p|] eqn:Hh; [|injection S as <- <-; apply T; [reflexivity|discriminate]].
      destruct (receive s h p RSession) as [s1 y] eqn:R. injection S as <- <-. apply T2; [discriminate|].
      eapply receive_closed; eauto. intros r rs x Hr Nd Ok Ne Q. exists []. split; [|intros t b []]. eapply session_loop; eauto.
    - destruct (nth_error (sp_hops s) h) as [[src c pre dst a wire m lf runs open]|] eqn:Hh; [|injection S as <- <-; apply T; [reflexivity|discriminate]].
      destruct wire as [|msg wire]; [injection S as <- <-; apply T; [reflexivity|discriminate]|].
      destruct lf; [injection S as <- <-; apply T; [reflexivity|discriminate]|].
      destruct (receive s h _ (RMsg msg)) as [s1 y] eqn:R. injection S as <- <-. apply T2; [discriminate|].
      eapply receive_closed; eauto. intros r rs x Hr Nd Ok Ne Q. destruct msg as [path|path].
      + exists [(path, length C)]. split; [|intros t b [[= <- <-]|[]]; auto]. exact (proj1 (read_active C _ P G _ r Ok Hr Nd Ne path wire (fun m => P m ++ (if Nat.eqb m dst then [(path, length C)] else [])) rs x eq_refl eq_refl Q (fun m => eq_refl))).
      + exists []. split; [|intros t b []]. exact (proj1 (read_ended C _ P G _ r Ok Hr Nd Ne path wire rs x eq_refl eq_refl Q)).
    - destruct (nth_error (sp_hops s) h) as [p|] eqn:Hh; [|injection S as <- <-; apply T; [reflexivity|discriminate]].
      destruct (hp_open p) eqn:Op; [injection S as <- <-; apply T; [reflexivity|discriminate]|].
      destruct (receive s h p _) as [s1 y] eqn:R. injection S as <- <-. apply T2; [discriminate|].
      eapply receive_closed; eauto. intros r rs x Hr Nd Ok Ne Q. exists []. split; [|intros t b []]. eapply end_loop; eauto.
    - destruct (nth_error (sp_hops s) h) as [p|] eqn:Hh; [|injection S as <- <-; apply T; [reflexivity|discriminate]].
      destruct (receive s h p _) as [s1 y] eqn:R. injection S as <- <-. apply T2; [discriminate|].
      eapply receive_closed; eauto. intros r rs x Hr Nd Ok Ne Q. exists []. split; [|intros t b []]. eapply idle_loop; eauto.
    - destruct (nth_error (sp_hops s) h) as [p|] eqn:Hh; [|injection S as <- <-; apply T; [reflexivity|discriminate]].
      destruct (receive s h p _) as [s1 y] eqn:R. injection S as <- <-. apply T2; [discriminate|].
      eapply receive_closed; eauto. intros r rs x Hr Nd Ok Ne Q. exists []. split; [|intros t b' []]. eapply run_loop; eauto.
  Qed.

  (** What a step publishes. *)
  Lemma pubs_at ev n path b : In (path, b) (flat_map pub_of (at_n n ev)) -> exists y, In (n, (OPublish 0 path b, y)) ev \/ exists p, In (n, (OPublish p path b, y)) ev.
  Proof.
    intros I. apply in_flat_map in I as ([op y] & I & J). unfold at_n in I. apply in_flat_map in I as ([m e] & I & E). cbn in E.
    destruct (Nat.eqb_spec m n) as [->|]; [|destruct E]. destruct E as [->|[]]. exists y. right. destruct op; try destruct J. destruct y; try destruct J; try contradiction.
    injection H as <- <-. eauto.
  Qed.
  Lemma on_did i op os os' ev : on_origin i op os = (os', ev) -> forall n e, In (n, e) ev -> n = i /\ fst e = op.
  Proof.
    unfold on_origin. destruct (nth_error os i); [|intros [= <- <-] n e []]. destruct (ostep o op). intros [= <- <-] n e [[= <- <-]|[]]. auto.
  Qed.

  Definition source (op : spop) (x : spout) (n : nat) (path : bytes) (b : nat) : Prop :=
    (op = SPublish n path b /\ so_ok x = true) \/
    (exists k l suf, op = SStep k /\ nth_error (sp_links s) k = Some l /\ lk_hold l = Some (suf, b) /\ n = lk_dst l /\ path = lk_add l ++ suf) \/
    (exists h p, op = SRead h /\ nth_error (sp_hops s) h = Some p /\ In (Active path) (hp_wire p) /\ n = hp_dst p).

  Lemma did_source op s' x : spstep s op = (s', x) -> forall n q path b y, In (n, (OPublish q path b, y)) (so_did x) -> source op x n path b.
  Proof.
    intros S n q path b y.
    assert (On : forall i o os os' ev, on_origin i o os = (os', ev) -> forall e, In (n, e) ev -> n = i /\ fst e = o) by (intros; eapply on_did; eauto).
    assert (Off : forall i o os os' ev, on_origin i o os = (os', ev) -> match o with OPublish _ _ _ => False | _ => True end -> ~ In (n, (OPublish q path b, y)) ev).
    { intros i o os os' ev O Q I. destruct (On _ _ _ _ _ O _ I) as (_ & E). cbn in E. subst o. exact Q. }
    destruct op; cbn [spstep] in S.
    - injection S as <- <-. intros [].
    - destruct (sp_origins s); injection S as <- <-; intros [].
    - destruct (existsb (Nat.eqb b0) (sp_mine s)); injection S as <- <-; intros [].
    - destruct (own s n0 && existsb (Nat.eqb b0) (sp_mine s)); [|injection S as <- <-; intros []]. destruct (on_origin _ _ _) as [os ev] eqn:O. injection S as <- <-.
      cbn. intros I. destruct (On _ _ _ _ _ O _ I) as (-> & E). cbn in E. left. split; [congruence|reflexivity].
    - destruct (own s n0 && usable s n0 o) eqn:U; [|injection S as <- <-; intros []]. destruct (on_origin _ _ _) as [os ev] eqn:O. injection S as <- <-.
      cbn. intros I. exfalso. apply andb_true_iff in U as (_ & U). revert I. eapply Off; eauto. destruct o; try discriminate; exact I.
    - destruct (_ && _); [|injection S as <- <-; intros []]. destruct (on_origin _ _ _) as [os ev] eqn:O. injection S as <- <-. cbn. intros I. exfalso. revert I. eapply Off; eauto. exact I.
    - destruct (_ && _); [|injection S as <- <-; intros []]. destruct (on_origin _ _ _) as [os ev] eqn:O. injection S as <- <-. cbn. intros I. exfalso. revert I. eapply Off; eauto. exact I.
    - destruct (nth_error (sp_hops s) h); [destruct (receive _ _ _ _)|]; injection S as <- <-; intros [].
    - destruct (on_origin _ _ _) as [os ev] eqn:O. injection S as <- <-. cbn. intros I. exfalso. revert I. eapply Off; eauto. exact I.
    - destruct (nth_error (sp_links s) k) as [l|] eqn:Hk; [|injection S as <- <-; intros []]. destruct l as [src c pre dst add wait hold over] eqn:El. destruct over; [injection S as <- <-; intros []|].
      destruct hold as [[suf b1]|].
      + destruct (on_origin _ _ _) as [os ev] eqn:O. injection S as <- <-. cbn. intros I. destruct (On _ _ _ _ _ O _ I) as (-> & E). cbn in E. injection E as -> -> ->.
        right. left. exists k, l, suf. subst l. auto.
      + intros I. exfalso. revert I. destruct wait.
        * destruct (on_origin src (ORecv c) (sp_origins s)) as [os ev] eqn:O. pose proof (Off _ _ _ _ _ O Logic.I) as F1.
          destruct (on_origin src (OCDrop c) os) as [os1 ev1] eqn:O1. pose proof (Off _ _ _ _ _ O1 Logic.I) as F2.
          destruct ev as [|[? [? []]] [|]]; try (injection S as <- <-; exact F1).
          injection S as <- <-. intros J. destruct J as [J|J]; [apply F1; left; exact J|auto].
        * destruct (on_origin src (OPop c) (sp_origins s)) as [os ev] eqn:O. pose proof (Off _ _ _ _ _ O Logic.I) as F1.
          destruct ev as [|[? [? []]] [|]]; try (injection S as <- <-; exact F1).
    - intros J. exfalso. revert J. destruct (nth_error (sp_hops s) h) as [[src c pre dst a wire m lf runs open]|] eqn:Hh; [|injection S as <- <-; intros []].
      destruct (an_over a); [injection S as <- <-; intros []|]. cbn zeta in S. destruct open.
      + destruct (on_origin src (OPop c) (sp_origins s)) as [os ev] eqn:O. pose proof (Off _ _ _ _ _ O Logic.I) as F1.
        destruct (on_origin src (ORecv c) os) as [os1 ev1] eqn:O1. pose proof (Off _ _ _ _ _ O1 Logic.I) as F2.
        destruct (on_origin src (OCancel c) os1) as [os2 ev2] eqn:O2. pose proof (Off _ _ _ _ _ O2 Logic.I) as F3.
        assert (T : forall e1 e2 e3, (~ In (n, (OPublish q path b, y)) e1) -> (~ In (n, (OPublish q path b, y)) e2) -> (~ In (n, (OPublish q path b, y)) e3) ->
            ~ In (n, (OPublish q path b, y)) (e1 ++ e2 ++ e3)).
        { intros e1 e2 e3 A B D J. apply in_app_or in J as [J|J]; auto. apply in_app_or in J as [J|J]; auto. }
        assert (T1 : forall e1 e2, (~ In (n, (OPublish q path b, y)) e1) -> (~ In (n, (OPublish q path b, y)) e2) -> ~ In (n, (OPublish q path b, y)) (e1 ++ e2)).
        { intros e1 e2 A B J. apply in_app_or in J as [J|J]; auto. }
        assert (T2 : forall ev', (~ In (n, (OPublish q path b, y)) ev') -> (let (os1, ev1) := (os1, ev1) in
                match ev1 with
                | [(_, (_, OWoken))] => (with_hop s h os1 (Hop src c pre dst (knowing [] (knowing (shut (sp_closed s)) a)) wire m lf runs true), fine (ev' ++ ev1))
                | _ =>
                    let (os2, ev2) := (os2, ev2) in
                    match nstep (knowing (shut (sp_closed s)) a) (NTurn APending j ks) with
                    | (a', NSent ms) => (with_hop s h os2 (Hop src c pre dst (knowing [] a') (wire ++ ms) m lf runs true), fine (ev' ++ ev1 ++ ev2))
                    | _ => (with_hop s h os2 (Hop src c pre dst (knowing [] (knowing (shut (sp_closed s)) a)) wire m lf runs true), fine (ev' ++ ev1 ++ ev2))
                    end
                end) = (s', x) -> ~ In (n, (OPublish q path b, y)) (so_did x)).
        { intros ev' F. cbn beta iota. destruct (nstep (knowing (shut (sp_closed s)) a) (NTurn APending j ks)) as [a' w].
          assert (T3 : (match w with
                    | NSent ms => (with_hop s h os2 (Hop src c pre dst (knowing [] a') (wire ++ ms) m lf runs true), fine (ev' ++ ev1 ++ ev2))
                    | _ => (with_hop s h os2 (Hop src c pre dst (knowing [] (knowing (shut (sp_closed s)) a)) wire m lf runs true), fine (ev' ++ ev1 ++ ev2))
                    end) = (s', x) -> ~ In (n, (OPublish q path b, y)) (so_did x)).
          { destruct w; intros [= <- <-]; apply T; auto. }
          destruct ev1 as [|[? [? []]] [|]]; try apply T3. intros [= <- <-]. apply T1; auto. }
        destruct ev as [|[? [? []]] [|]]; try (eapply T2; [|exact S]; auto; fail).
        destruct (nstep (fst _) _) as [a' []]; injection S as <- <-; auto.
      + destruct (on_origin _ _ _) as [os ev] eqn:O. injection S as <- <-. eapply Off; eauto. exact I.
    - destruct (nth_error (sp_hops s) h) as [[src c pre dst a wire m lf runs open]|] eqn:Hh; [|injection S as <- <-; intros []].
      destruct wire as [|msg wire]; [injection S as <- <-; intros []|]. destruct lf; [injection S as <- <-; intros []|].
      destruct (receive s h _ (RMsg msg)) as [s1 w] eqn:R. injection S as <- <-. cbn. intros I. right. right. exists h. eexists. split; [reflexivity|]. split; [exact Hh|]. cbn.
      destruct msg as [t|t]; [|destruct I]. cbn in I. destruct w; destruct I as [[= <- <- <- <- <-]|[]]; auto.
    - destruct (nth_error (sp_hops s) h) as [p|]; [|injection S as <- <-; intros []]. destruct (hp_open p); [injection S as <- <-; intros []|]. destruct (receive _ _ _ _). injection S as <- <-. intros [].
    - destruct (nth_error (sp_hops s) h) as [p|]; [|injection S as <- <-; intros []]. destruct (receive _ _ _ _). injection S as <- <-. intros [].
    - destruct (nth_error (sp_hops s) h) as [p|]; [|injection S as <- <-; intros []]. destruct (receive _ _ _ _). injection S as <- <-. intros [].
    - injection S as <- <-. intros [].
  Qed.

  Lemma pubs_source op s' x n path b : spstep s op = (s', x) -> In (path, b) (flat_map pub_of (at_n n (so_did x))) -> source op x n path b.
  Proof. intros S I. destruct (pubs_at _ _ _ _ I) as (y & [J|(q & J)]); eapply did_source; eauto. Qed.
End Step.
