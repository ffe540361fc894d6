(** Every run of the network satisfies what SpreadNetP.v states. *)
From Coq Require Import NArith ZArith List Lia Bool Permutation.
From Coq Require Import Init.Byte Strings.Byte.
From Coq Require Import ZifyBool ZifyNat ZifyN.
From Verif.Model Require Import OriginSys Base Coding Message ErrorCode Stream Frame FrameSys Map Publisher ReceiverSys Spread.
From Verif.Spec Require Import OriginSpec SpreadSpec.
From Verif.Proofs Require Import TableP MapP BroadcastP OriginP OriginTop RelaySysP ReceiverP SpreadP SpreadFrameP SpreadTurnP SpreadRecvP SpreadNetP SpreadStepP SpreadInvP SpreadRunP.
Import ListNotations.
Open Scope nat_scope.
#[local] Arguments put : simpl never.
#[local] Arguments remove : simpl never.
#[local] Arguments lookup : simpl never.
#[local] Arguments set_nth : simpl never.

Section Step.
  Context (s : spread) (P : pubs_fn) (G : got_fn) (N : net_s s P G).
  Let os := sp_origins s.
  Let C := sp_closed s.

  Lemma map_nonempty {A B} (f : A -> B) l n x : nth_error l n = Some x -> map f l <> [].
  Proof. intros H E. apply map_eq_nil in E. subst l. destruct n; discriminate. Qed.

  Lemma receive_net h p p1 op w r rs x pubs P' :
    nth_error (sp_hops s) h = Some p -> hp_wire p1 = w -> htri p1 = htri p -> hp_pre p1 = hp_pre p -> hp_ann p1 = hp_ann p -> hp_map p1 = hp_map p ->
    hp_left p1 = hp_left p -> hp_runs p1 = hp_runs p -> hp_open p1 = hp_open p ->
    nth_error os (hp_dst p) = Some r -> rstep (the_loop p r) op = (rs, x) ->
    (forall m, P' m = P m ++ (if Nat.eqb m (hp_dst p) then pubs else [])) ->
    (forall t b, In (t, b) pubs -> length C <= b) ->
    received C (P (hp_dst p)) r (rv_origin rs) pubs ->
    hop_ok (os_closed (rv_origin rs)) (all_closed (os_closed (rv_origin rs)) (set_nth (hp_dst p) (rv_origin rs) os)) P' G (after p w rs) ->
    snd (receive s h p1 op) = x /\ net_s (fst (receive s h p1 op)) P' G.
  Proof.
    intros Hh Ew Et E1 E2 E3 E4 E5 E6 Hr R HP Fr Rc Ok. unfold htri in Et. injection Et as T1 T2 T3.
    unfold receive. rewrite T3. fold os. rewrite Hr, E3, E4, E5, E6. unfold the_loop in R. rewrite R. cbn [fst snd]. split; [reflexivity|].
    unfold net_s, everywhere, with_hop, sp_closed. cbn [sp_origins sp_links sp_hops sp_mine].
    set (C' := os_closed (rv_origin rs)) in *.
    replace (match map (with_closed C') (set_nth (hp_dst p) (rv_origin rs) os) with a :: _ => os_closed a | [] => [] end) with C'.
    2:{ destruct (set_nth (hp_dst p) (rv_origin rs) os) eqn:E; [|reflexivity]. exfalso.
        assert (X : length (set_nth (hp_dst p) (rv_origin rs) os) = 0) by (rewrite E; reflexivity). rewrite set_nth_length in X.
        assert (hp_dst p < length os) by (apply nth_error_Some; congruence). lia. }
    rewrite T1, T2, E1, E2, Ew. eapply net_receive; eauto.
  Qed.

  Lemma fst_snd {A B} (q : A * B) a b : q = (a, b) -> a = fst q /\ b = snd q.
  Proof. intros ->. auto. Qed.

  Lemma hop_facts h p : nth_error (sp_hops s) h = Some p ->
    hop_ok C os P G p /\ (exists r, nth_error os (hp_dst p) = Some r /\ node C (P (hp_dst p)) r) /\ hp_src p <> hp_dst p.
  Proof.
    intros Hh. assert (I : In p (sp_hops s)) by (eapply nth_error_In; eauto). pose proof (n_hops _ _ _ _ _ _ _ N _ I) as Ok. split; [exact Ok|].
    destruct (ho_dst _ _ _ _ _ Ok) as (r & Hr & _). split.
    - exists r. split; auto. apply (n_node _ _ _ _ _ _ _ N _ _ Hr).
    - intros E. destruct (n_hsrc _ _ _ _ _ _ _ N _ I) as (_ & D). apply (D p I). congruence.
  Qed.
  Lemma Pd_nil m : Pd [] P m = P m ++ (if Nat.eqb m 0 then [] else []).
  Proof. unfold Pd. cbn. destruct (Nat.eqb m 0); reflexivity. Qed.

  (** An event of the loop that publishes nothing. *)
  Lemma receive_quiet h p op s' y : nth_error (sp_hops s) h = Some p -> receive s h p op = (s', y) ->
    (forall r rs x, nth_error os (hp_dst p) = Some r -> node C (P (hp_dst p)) r -> hop_ok C os P G p -> hp_src p <> hp_dst p -> rstep (the_loop p r) op = (rs, x) ->
       received C (P (hp_dst p)) r (rv_origin rs) [] /\
       hop_ok (os_closed (rv_origin rs)) (all_closed (os_closed (rv_origin rs)) (set_nth (hp_dst p) (rv_origin rs) os)) P G (after p (hp_wire p) rs)) ->
    net_s s' P G.
  Proof.
    intros Hh E X. destruct (hop_facts h p Hh) as (Ok & (r & Hr & Nd) & Ne). destruct (rstep (the_loop p r) op) as [rs x] eqn:R.
    destruct (X r rs x Hr Nd Ok Ne R) as (Rc & Ok').
    destruct (receive_net h p p op (hp_wire p) r rs x [] P Hh eq_refl eq_refl eq_refl eq_refl eq_refl eq_refl eq_refl eq_refl Hr R) as (_ & Z); auto.
    - intros m. destruct (Nat.eqb m (hp_dst p)); symmetry; apply app_nil_r.
    - intros t b [].
    - rewrite E in Z. exact Z.
  Qed.

  Lemma read_step h s' x : spstep s (SRead h) = (s', x) -> net_s s' (Pd (so_did x) P) (Gd (so_did x) G).
  Proof.
    cbn [spstep]. destruct (nth_error (sp_hops s) h) as [[src c pre dst a wire m lf runs open]|] eqn:Hh;
      [|intros [= <- <-]; apply net_nil; exact N].
    destruct wire as [|msg wire]; [intros [= <- <-]; apply net_nil; exact N|].
    destruct lf as [e|]; [intros [= <- <-]; apply net_nil; exact N|].
    set (p := Hop src c pre dst a (msg :: wire) m None runs open) in *.
    set (p1 := Hop src c pre dst a wire m None runs open).
    destruct (hop_facts h p Hh) as (Ok & (r & Hr & Nd) & Ne). destruct (rstep (the_loop p r) (RMsg msg)) as [rs y] eqn:R.
    destruct msg as [path|path].
    - set (Q := fun m => P m ++ (if Nat.eqb m dst then [(path, length C)] else [])).
      destruct (read_active C os P G p r Ok Hr Nd Ne path wire Q rs y eq_refl eq_refl R (fun m => eq_refl)) as (Rc & Y & Ok').
      destruct (receive_net h p p1 (RMsg (Active path)) wire r rs y [(path, length C)] Q Hh eq_refl eq_refl eq_refl eq_refl eq_refl eq_refl eq_refl eq_refl Hr R) as (Z1 & Z2); auto.
      { intros t b [[= <- <-]|[]]. auto. }
      destruct (receive s h p1 (RMsg (Active path))) as [s1 y1]. cbn in Z1, Z2. subst y1. intros [= <- <-]. cbn [fine so_did].
      assert (D : exists u, publication p1 (Active path) (length (sp_closed s)) y = [(dst, (OPublish 0 path (length C), OUnique u))]).
      { unfold publication. destruct Y as [->|(e & ->)]; eauto. }
      destruct D as (u & D). cbn [publication p1 hp_dst] in D. rewrite D. eapply net_ext; [| |exact Z2].
      + intros n. unfold Pd, Q. cbn. rewrite Nat.eqb_sym. destruct (Nat.eqb n dst); reflexivity.
      + intros n d. unfold Gd. cbn. destruct (Nat.eqb dst n); apply app_nil_r.
    - destruct (read_ended C os P G p r Ok Hr Nd Ne path wire rs y eq_refl eq_refl R) as (Rc & Ok').
      destruct (receive_net h p p1 (RMsg (Ended path)) wire r rs y [] P Hh eq_refl eq_refl eq_refl eq_refl eq_refl eq_refl eq_refl eq_refl Hr R) as (Z1 & Z2); auto.
      { intros n. destruct (Nat.eqb n (hp_dst p)); symmetry; apply app_nil_r. }
      { intros t b []. }
      destruct (receive s h p1 (RMsg (Ended path))) as [s1 y1]. cbn in Z1, Z2. intros [= <- <-]. cbn [fine so_did publication]. apply net_nil. exact Z2.
  Qed.

  Lemma net_step op s' x : spstep s op = (s', x) -> net_s s' (Pd (so_did x) P) (Gd (so_did x) G).
  Proof.
    destruct op; cbn [spstep].
    - intros [= <- <-]. apply net_nil. apply step_node. exact N.
    - destruct (sp_origins s) eqn:E; [intros [= <- <-]; apply net_nil; exact N|]. intros [= <- <-]. apply net_nil. cbn [everywhere sp_origins sp_links sp_hops].
      apply step_new; auto. congruence.
    - destruct (existsb (Nat.eqb b) (sp_mine s)) eqn:E; [|intros [= <- <-]; apply net_nil; exact N]. intros [= <- <-]. apply net_nil.
      apply step_end; auto. apply existsb_exists in E as (b' & I & Eb). apply Nat.eqb_eq in Eb. congruence.
    - destruct (own s n && existsb (Nat.eqb b) (sp_mine s)) eqn:E; [|intros [= <- <-]; apply net_nil; exact N].
      apply andb_true_iff in E as (O & _). apply own_iff in O.
      destruct (on_origin n (OPublish 0 path b) (sp_origins s)) as [os1 ev] eqn:Q. intros [= <- <-]. cbn [fine so_did].
      apply (step_at s P G N n (OPublish 0 path b) (os1, ev)); auto; [exact I|discriminate|]. intros p o o' y Ip En. exfalso. destruct O as (_ & O). apply (O p Ip). congruence.
    - destruct (own s n && usable s n o) eqn:E; [|intros [= <- <-]; apply net_nil; exact N].
      apply andb_true_iff in E as (O & U). apply own_iff in O.
      destruct (on_origin n o (sp_origins s)) as [os1 ev] eqn:Q. intros [= <- <-]. cbn [fine so_did].
      apply (step_at s P G N n o (os1, ev)); auto.
      + destruct o; try discriminate; exact I.
      + destruct o; try discriminate.
      + intros c Hc. destruct o; cbn in *; auto; apply Nat.eqb_neq; intros ->; rewrite Hc in U; discriminate.
      + intros p a a' y Ip En. exfalso. destruct O as (_ & O). apply (O p Ip). congruence.
    - destruct (own s a && own s b) eqn:E; [|intros [= <- <-]; apply net_nil; exact N].
      apply andb_true_iff in E as (Oa & Ob). apply own_iff in Oa, Ob.
      destruct (nth_error (sp_origins s) a) as [o|] eqn:H; [|apply nth_error_None in H; destruct Oa; lia].
      destruct (ostep o (OConsume 0 pre ks)) as [o' y] eqn:B. rewrite (on_some _ _ _ _ _ _ H B). intros [= <- <-]. cbn [so_did].
      apply step_link; auto.
    - destruct (own s a && own s b) eqn:E; [|intros [= <- <-]; apply net_nil; exact N].
      apply andb_true_iff in E as (Oa & Ob). apply own_iff in Oa, Ob.
      destruct (nth_error (sp_origins s) a) as [o|] eqn:H; [|apply nth_error_None in H; destruct Oa; lia].
      destruct (ostep o (OConsume 0 pre ks)) as [o' y] eqn:B. rewrite (on_some _ _ _ _ _ _ H B). intros [= <- <-]. cbn [so_did].
      apply step_hop; auto.
    - destruct (nth_error (sp_hops s) h) as [p|] eqn:Hh; [|intros [= <- <-]; apply net_nil; exact N].
      destruct (receive s h p RSession) as [s1 y] eqn:R. intros [= <- <-]. apply net_nil.
      eapply receive_quiet; eauto. intros. eapply session_loop; eauto.
    - destruct (on_origin n (OTask k) (sp_origins s)) as [os1 ev] eqn:Q. intros [= <- <-]. cbn [fine so_did].
      apply (step_at s P G N n (OTask k) (os1, ev)); auto; [exact I|discriminate|]. intros p o o' y Ip En Ho B. split; [reflexivity|discriminate].
    - intros S. exact (link_step s P G N k s' x S).
    - intros S. exact (hop_step s P G N h j ks s' x S).
    - intros S. exact (read_step h s' x S).
    - destruct (nth_error (sp_hops s) h) as [p|] eqn:Hh; [|intros [= <- <-]; apply net_nil; exact N].
      destruct (hp_open p) eqn:Op; [intros [= <- <-]; apply net_nil; exact N|].
      destruct (receive s h p (REnd (Some WebTransport))) as [s1 y] eqn:R. intros [= <- <-]. apply net_nil.
      eapply receive_quiet; eauto. intros. eapply end_loop; eauto.
    - destruct (nth_error (sp_hops s) h) as [p|] eqn:Hh; [|intros [= <- <-]; apply net_nil; exact N].
      destruct (receive s h p RUnused) as [s1 y] eqn:R. intros [= <- <-]. apply net_nil.
      eapply receive_quiet; eauto. intros. eapply idle_loop; eauto.
    - destruct (nth_error (sp_hops s) h) as [p|] eqn:Hh; [|intros [= <- <-]; apply net_nil; exact N].
      destruct (receive s h p (RRun b)) as [s1 y] eqn:R. intros [= <- <-]. apply net_nil.
      eapply receive_quiet; eauto. intros. eapply run_loop; eauto.
    - intros [= <- <-]. apply net_nil. exact N.
  Qed.
End Step.

Definition P_of (tr : list spevent) : pubs_fn := fun n => given n tr.
Definition G_of (tr : list spevent) : got_fn := fun n c => got c (history n tr).

Lemma history_snoc n tr e : history n (tr ++ [e]) = history n tr ++ at_n n (so_did (snd e)).
Proof. unfold history. rewrite flat_map_app. cbn. rewrite app_nil_r. reflexivity. Qed.

Lemma sprun_snoc s ops op : sprun s (ops ++ [op]) =
  let (s1, tr) := sprun s ops in let (s2, x) := spstep s1 op in (s2, tr ++ [(op, x)]).
Proof.
  revert s. induction ops as [|o ops IH]; intros s; cbn.
  - destruct (spstep s op); reflexivity.
  - destruct (spstep s o) as [s1 x]. rewrite IH. destruct (sprun s1 ops) as [s2 tr]. destruct (spstep s2 op); reflexivity.
Qed.

Lemma run_ind (Q : spread -> list spevent -> Prop) : Q spread_new [] ->
  (forall ops s tr op s' x, sprun spread_new ops = (s, tr) -> Q s tr -> spstep s op = (s', x) -> Q s' (tr ++ [(op, x)])) ->
  forall ops s tr, sprun spread_new ops = (s, tr) -> Q s tr.
Proof.
  intros Q0 QS ops. induction ops as [|op ops IH] using rev_ind; intros s tr R.
  - injection R as <- <-. exact Q0.
  - rewrite sprun_snoc in R. destruct (sprun spread_new ops) as [s1 tr1] eqn:R1. destruct (spstep s1 op) as [s2 x] eqn:S. injection R as <- <-.
    eapply QS; eauto.
Qed.

Lemma net_run ops s tr : sprun spread_new ops = (s, tr) -> net_s s (P_of tr) (G_of tr).
Proof.
  revert ops s tr. apply run_ind.
  - split; cbn; auto; try (intros; contradiction); try (constructor; fail); try (intros [|?]; discriminate); try (intros [|?] ? ?; discriminate); try discriminate.
  - intros ops s tr op s' x _ N S. eapply net_ext; [| |eapply net_step; eauto].
    + intros n. unfold P_of, given, Pd. rewrite history_snoc, flat_map_app. reflexivity.
    + intros n c. unfold G_of, Gd, got. rewrite history_snoc, flat_map_app. reflexivity.
Qed.
