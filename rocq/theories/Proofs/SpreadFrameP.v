(** Forwarding tasks and announce streams while others act. *)
From Coq Require Import NArith ZArith List Lia Bool Permutation.
From Coq Require Import Init.Byte Strings.Byte.
From Coq Require Import ZifyBool ZifyNat ZifyN.
From Verif.Model Require Import OriginSys Base Coding Message ErrorCode Stream Frame FrameSys Map Publisher ReceiverSys Spread.
From Verif.Spec Require Import OriginSpec SpreadSpec.
From Verif.Proofs Require Import TableP MapP BroadcastP OriginP OriginTop RelaySysP SpreadP.
Import ListNotations.
Open Scope nat_scope.

Definition pubs_fn := nat -> list (bytes * nat).
Definition got_fn := nat -> nat -> list (bytes * nat).

(** * Forwarding tasks *)
Record link_ok (C : list bool) (os : list osys) (P : pubs_fn) (G : got_fn) (l : link) : Prop := {
  lo_src : exists o, nth_error os (lk_src l) = Some o /\
    if lk_over l then os_alive o = false /\ (forall x, In x (P (lk_src l)) -> closedb C (snd x)) /\ lk_hold l = None
    else tracks C (P (lk_src l)) (G (lk_src l) (lk_cons l)) o (lk_cons l) (lk_pre l) (lk_wait l);
  lo_seen : forall suf b, In (suf, b) (G (lk_src l) (lk_cons l)) ->
    lk_hold l = Some (suf, b) \/ In (lk_add l ++ suf, b) (P (lk_dst l));
  lo_hold : forall suf b, lk_hold l = Some (suf, b) -> In (suf, b) (G (lk_src l) (lk_cons l)) /\ lk_wait l = false }.

(** * Announce streams *)
Inductive phase := Fresh | Live | Done.
Inductive travel (s : bytes) : phase -> list announce -> phase -> Prop :=
| tv_same p : travel s p [] p
| tv_a : travel s Fresh [Active s] Live
| tv_e : travel s Live [Ended s] Done
| tv_ae : travel s Fresh [Active s; Ended s] Done.
Definition about (s : bytes) (m : announce) : bool := match m with Active p | Ended p => str_eqb s p end.

Definition recv_phase (P : list (bytes * nat)) (m : map_of nat) (s : bytes) (p : phase) : Prop :=
  match p with
  | Fresh => ~ In s (map fst P)
  | Live => exists b, lookup s m = Some b
  | Done => In s (map fst P) /\ lookup s m = None
  end.
Definition pub_phase (G T : list (bytes * nat)) (s : bytes) (p : phase) : Prop :=
  match p with
  | Fresh => ~ In s (map fst G)
  | Live => In s (map fst T)
  | Done => In s (map fst G) /\ ~ In s (map fst T)
  end.
Definition late_phase (C : list bool) (G : list (bytes * nat)) (s : bytes) (p : phase) : Prop :=
  match p with
  | Fresh => True
  | Live => In s (map fst G)
  | Done => exists b, In (s, b) G /\ closedb C b
  end.

Record hop_once (C : list bool) (Pr G : list (bytes * nat)) (p : hop) : Prop := {
  h1_got : NoDup (map fst G);
  h1_tasks : NoDup (map fst (an_tasks (hp_ann p)));
  h1_pubs : NoDup (map fst Pr);
  h1_left : hp_left p <> None -> hp_open p = false /\ hp_map p = [];
  h1_map : forall s b, lookup s (hp_map p) = Some b -> ~ closedb C b;
  h1_shut : hp_left p = None -> forall s b, In (s, b) Pr -> lookup s (hp_map p) = None -> closedb C b;
  h1_cause : forall s b, In (s, b) Pr -> closedb C b -> hp_open p = false \/ exists b0, In (s, b0) G /\ closedb C b0;
  h1_quit : forall s b, nth_error (hp_runs p) b = Some (s, false) -> In (s, b) Pr ->
    hp_open p = false /\ (closedb C b \/ lookup s (hp_map p) = Some b);
  h1_travel : hp_left p = None -> forall s, exists pr pp, recv_phase Pr (hp_map p) s pr /\
    travel s pr (filter (about s) (hp_wire p)) pp /\ late_phase C G s pp /\
    (an_over (hp_ann p) = false -> pub_phase G (an_tasks (hp_ann p)) s pp);
  h1_done : an_over (hp_ann p) = false -> forall s b, In (s, b) G -> In (s, b) (an_tasks (hp_ann p)) \/ closedb C b }.

Record hop_ok (C : list bool) (os : list osys) (P : pubs_fn) (G : got_fn) (p : hop) : Prop := {
  ho_src : exists o, nth_error os (hp_src p) = Some o /\
    (an_over (hp_ann p) = false -> tracks C (P (hp_src p)) (G (hp_src p) (hp_cons p)) o (hp_cons p) (hp_pre p) false);
  ho_dst : exists r, nth_error os (hp_dst p) = Some r /\
    (hp_left p = None -> get (os_prods r) 0 = Some tt /\ exists k, get (os_cons r) 0 = Some k);
  ho_ann : an_queue (hp_ann p) = [] /\ an_gone (hp_ann p) = false /\ an_closed (hp_ann p) = [];
  ho_over : an_over (hp_ann p) = true -> hp_open p = false;
  ho_runs : length (hp_runs p) = length C;
  ho_got : forall s b, In (s, b) (G (hp_src p) (hp_cons p)) -> In (hp_pre p ++ s, b) (P (hp_src p));
  ho_tasks : incl (an_tasks (hp_ann p)) (G (hp_src p) (hp_cons p));
  ho_wire : forall s, In (Active s) (hp_wire p) -> In s (map fst (G (hp_src p) (hp_cons p)));
  ho_pubs : forall s b, In (s, b) (P (hp_dst p)) -> In s (map fst (G (hp_src p) (hp_cons p)));
  ho_run : forall s b, In (s, b) (P (hp_dst p)) -> exists r, nth_error (hp_runs p) b = Some (s, r);
  ho_true : forall s b, nth_error (hp_runs p) b = Some (s, true) -> In (s, b) (P (hp_dst p));
  ho_map : forall s b, lookup s (hp_map p) = Some b -> In (s, b) (P (hp_dst p));
  ho_keys : NoDup (map fst (hp_map p));
  ho_once : NoDup (map fst (P (hp_src p))) -> hop_once C (P (hp_dst p)) (G (hp_src p) (hp_cons p)) p }.

(** * When an origin moves *)
Lemma dead_run ops : forall o o' ev, os_alive o = false -> orun o ops = (o', ev) -> flat_map pub_of ev = [] /\ os_alive o' = false.
Proof.
  induction ops as [|op ops IH]; intros o o' ev A R; cbn [orun] in R.
  - injection R as <- <-. auto.
  - destruct (ostep o op) as [o1 x] eqn:B. destruct (orun o1 ops) as [o2 t] eqn:R2. injection R as <- <-.
    assert (A1 : os_alive o1 = false).
    { pose proof (alive_step o op) as S. rewrite B in S. cbn in S. destruct (os_alive o1); auto. rewrite S in A; auto. }
    destruct (IH _ _ _ A1 R2) as (E & A2). split; auto. cbn. rewrite E, app_nil_r.
    destruct op; auto. destruct x; auto. exfalso. cbn in B. destruct (get (os_prods o) p) eqn:G; [|discriminate].
    apply alive_prod in G. congruence.
Qed.

Section Move.
  Context (C : list bool) (os : list osys) (P P' : pubs_fn) (G G' : got_fn) (n : nat) (o o' : osys) (ops : list oop) (ev : list oevent).
  Let moved : Prop := nth_error os n = Some o /\ node C (P n) o /\ orun o ops = (o', ev) /\ Forall calm ops /\
    (forall m, P' m = P m ++ (if Nat.eqb m n then flat_map pub_of ev else [])) /\
    (forall m c, G' m c = G m c ++ (if Nat.eqb m n then got c ev else [])).

  Lemma P_ne : moved -> forall m, m <> n -> P' m = P m.
  Proof. intros (_ & _ & _ & _ & H & _) m N. rewrite H. destruct (Nat.eqb_spec m n); [contradiction|]. apply app_nil_r. Qed.
  Lemma G_ne : moved -> forall m c, m <> n -> G' m c = G m c.
  Proof. intros (_ & _ & _ & _ & _ & H) m c N. rewrite H. destruct (Nat.eqb_spec m n); [contradiction|]. apply app_nil_r. Qed.
  Lemma P_eq : moved -> P' n = P n ++ flat_map pub_of ev.
  Proof. intros (_ & _ & _ & _ & H & _). rewrite H, Nat.eqb_refl. reflexivity. Qed.
  Lemma G_eq : moved -> forall c, G' n c = G n c ++ got c ev.
  Proof. intros (_ & _ & _ & _ & _ & H) c. rewrite H, Nat.eqb_refl. reflexivity. Qed.
  Lemma P_incl : moved -> forall m, incl (P m) (P' m).
  Proof. intros (_ & _ & _ & _ & H & _) m x I. rewrite H. apply in_or_app. auto. Qed.
  Lemma os_eq : moved -> nth_error (set_nth n o' os) n = Some o'.
  Proof. intros (H & _). apply nth_error_set_eq, nth_error_Some. congruence. Qed.

  (** A consumer that is left alone. *)
  Lemma tracks_move m c pre w a : moved -> nth_error os m = Some a -> (m = n -> Forall (fun op => touches_cons c op = false) ops) ->
    tracks C (P m) (G m c) a c pre w ->
    exists a', nth_error (set_nth n o' os) m = Some a' /\ tracks C (P' m) (G' m c) a' c pre w /\ G' m c = G m c.
  Proof.
    intros M A T K. destruct (Nat.eq_dec m n) as [->|N].
    - exists o'. split; [apply os_eq; auto|]. rewrite P_eq, G_eq by auto. destruct M as (H & Nd & R & F & _ & _).
      assert (a = o) by congruence. subst a. destruct (tracks_run _ _ _ _ _ _ _ _ _ _ Nd R F (T eq_refl) K) as (K' & E).
      split; auto. rewrite E. apply app_nil_r.
    - exists a. rewrite nth_error_set_ne by auto. rewrite P_ne, G_ne by auto. auto.
  Qed.

  Lemma link_move l : moved -> (lk_over l = false -> n = lk_src l -> Forall (fun op => touches_cons (lk_cons l) op = false) ops) ->
    (lk_over l = true -> n = lk_src l -> got (lk_cons l) ev = []) ->
    link_ok C os P G l -> link_ok C (set_nth n o' os) P' G' l.
  Proof.
    intros M T T' [(a & A & L1) L2 L3]. pose proof (P_incl M) as PI.
    assert (E : G' (lk_src l) (lk_cons l) = G (lk_src l) (lk_cons l) /\ exists a', nth_error (set_nth n o' os) (lk_src l) = Some a' /\
      if lk_over l then os_alive a' = false /\ (forall x, In x (P' (lk_src l)) -> closedb C (snd x)) /\ lk_hold l = None
      else tracks C (P' (lk_src l)) (G' (lk_src l) (lk_cons l)) a' (lk_cons l) (lk_pre l) (lk_wait l)).
    { destruct (lk_over l) eqn:O.
      - destruct L1 as (Al & Cl & Hd). destruct (Nat.eq_dec (lk_src l) n) as [En|N].
        + rewrite En in *. rewrite P_eq, G_eq by auto. rewrite T' by auto. split; [apply app_nil_r|]. exists o'. split; [apply os_eq; auto|].
          destruct M as (H & Nd & R & F & _ & _). assert (a = o) by congruence. subst a.
          destruct (dead_run _ _ _ _ Al R) as (E & Al'). rewrite E, app_nil_r. auto.
        + rewrite P_ne, G_ne by auto. split; auto. exists a. rewrite nth_error_set_ne by auto. auto.
      - destruct (tracks_move _ _ _ _ _ M A (fun e => T eq_refl (eq_sym e)) L1) as (a' & A' & K & E). split; auto. exists a'. auto. }
    destruct E as (E & L1'). split; auto; rewrite E; auto.
    intros suf b H. destruct (L2 _ _ H); auto. right. apply PI. auto.
  Qed.

  Lemma hop_move p : moved -> (an_over (hp_ann p) = false -> n = hp_src p -> Forall (fun op => touches_cons (hp_cons p) op = false) ops) ->
    (an_over (hp_ann p) = true -> n = hp_src p -> got (hp_cons p) ev = []) ->
    (n = hp_dst p -> flat_map pub_of ev = [] /\ (hp_left p = None -> get (os_prods o') 0 = Some tt /\ exists k, get (os_cons o') 0 = Some k)) ->
    hop_ok C os P G p -> hop_ok C (set_nth n o' os) P' G' p.
  Proof.
    intros M T T' D [(a & A & K) (r & Rr & K2) H3 H4 H5 H6 H7 H8 H9 H10 H11 H12 H13 H14]. pose proof (P_incl M) as PI.
    assert (EG : G' (hp_src p) (hp_cons p) = G (hp_src p) (hp_cons p)).
    { destruct (Nat.eq_dec (hp_src p) n) as [En|N]; [|apply G_ne; auto]. destruct (an_over (hp_ann p)) eqn:O.
      - rewrite En, (G_eq M), T' by auto. apply app_nil_r.
      - destruct (tracks_move _ _ _ _ _ M A (fun e => T eq_refl (eq_sym e)) (K eq_refl)) as (_ & _ & _ & E). exact E. }
    assert (EP : P' (hp_dst p) = P (hp_dst p)).
    { destruct (Nat.eq_dec (hp_dst p) n) as [En|N]; [|apply P_ne; auto]. rewrite En, (P_eq M). destruct (D (eq_sym En)) as (-> & _). apply app_nil_r. }
    assert (ND : NoDup (map fst (P' (hp_src p))) -> NoDup (map fst (P (hp_src p)))).
    { destruct M as (_ & _ & _ & _ & HP & _). rewrite HP, map_app. apply NoDup_app_l. }
    split; rewrite ?EG, ?EP; auto.
    - destruct (an_over (hp_ann p)) eqn:O.
      + destruct (Nat.eq_dec (hp_src p) n) as [En|N].
        * exists o'. rewrite En. split; [apply os_eq; auto|discriminate].
        * exists a. rewrite nth_error_set_ne by auto. split; [auto|discriminate].
      + destruct (tracks_move _ _ _ _ _ M A (fun e => T eq_refl (eq_sym e)) (K eq_refl)) as (a' & A' & K' & _).
        exists a'. rewrite <- EG. auto.
    - destruct (Nat.eq_dec (hp_dst p) n) as [En|N].
      + exists o'. rewrite En. split; [apply os_eq; auto|]. apply D; auto.
      + exists r. rewrite nth_error_set_ne by auto. auto.
    - intros s b I. apply PI. auto.
  Qed.
End Move.

(** * When broadcasts are made or closed *)
Definition all_closed (C : list bool) (os : list osys) : list osys := map (with_closed C) os.
Lemma nth_closed C os n o : nth_error os n = Some o -> nth_error (all_closed C os) n = Some (with_closed C o).
Proof. intros H. unfold all_closed. rewrite nth_error_map, H. reflexivity. Qed.

Lemma link_grow C C' os P G l : grows C C' -> link_ok C os P G l -> link_ok C' (all_closed C' os) P G l.
Proof.
  intros Gr [(a & A & L1) L2 L3]. split; auto. exists (with_closed C' a). split; [apply nth_closed; auto|].
  destruct (lk_over l); [|eapply tracks_grow; eauto]. destruct L1 as (X & Y & Z). split; [exact X|]. split; [|exact Z].
  intros x I. apply Gr. auto.
Qed.

Lemma nth_pad (l : list (bytes * bool)) n b x : nth_error l b = Some x -> nth_error (l ++ repeat ([], false) n) b = Some x.
Proof. intros H. rewrite nth_error_app1; auto. apply nth_error_Some. congruence. Qed.
Lemma nth_pad_true (l : list (bytes * bool)) n b s : nth_error (l ++ repeat ([], false) n) b = Some (s, true) -> nth_error l b = Some (s, true).
Proof.
  intros H. destruct (lt_dec b (length l)); [rewrite nth_error_app1 in H; auto|].
  rewrite nth_error_app2 in H by lia. apply nth_error_In in H. apply repeat_spec in H. discriminate.
Qed.

Lemma hop_grow C C' os P G p : grows C C' -> (forall s b, In (s, b) (P (hp_dst p)) -> closedb C' b -> closedb C b) ->
  (forall x, In x (P (hp_dst p)) -> snd x < length C) ->
  hop_ok C os P G p -> hop_ok C' (all_closed C' os) P G (with_runs (length C') p).
Proof.
  intros Gr Own Bd [(a & A & K) (r & Rr & K2) H3 H4 H5 H6 H7 H8 H9 H10 H11 H12 H13 H14].
  split; cbn [with_runs hp_src hp_dst hp_cons hp_pre hp_ann hp_wire hp_map hp_left hp_open hp_runs]; auto.
  - exists (with_closed C' a). split; [apply nth_closed; auto|]. intros O. eapply tracks_grow; eauto.
  - exists (with_closed C' r). split; [apply nth_closed; auto|]. exact K2.
  - rewrite app_length, repeat_length, H5. destruct Gr as [L _]. lia.
  - intros s b I. destruct (H10 _ _ I) as (x & X). exists x. apply nth_pad. auto.
  - intros s b I. apply nth_pad_true in I. auto.
  - intros Nd. destruct (H14 Nd) as [J1 J2 J3 J4 J5 J6 J7 J8 J9 J10]. destruct Gr as [Len Gr].
    split; cbn [with_runs hp_src hp_dst hp_cons hp_pre hp_ann hp_wire hp_map hp_left hp_open hp_runs]; auto.
    + intros s b L Cl. eapply J5; eauto.
    + intros Lf s b I L. apply Gr. eauto.
    + intros s b I Cl. destruct (J7 _ _ I (Own _ _ I Cl)) as [?|(b0 & I0 & C0)]; auto. right. exists b0. auto.
    + intros s b I Ip. pose proof (Bd _ Ip) as B. cbn in B. rewrite nth_error_app1 in I by lia. destruct (J8 _ _ I Ip) as (? & [?|?]); auto.
    + intros Lf s. destruct (J9 Lf s) as (pr & pp & X1 & X2 & X3 & X4). exists pr, pp. repeat split; auto.
      destruct pp; cbn in *; auto. destruct X3 as (b & ? & ?). exists b. auto.
    + intros O s b I. destruct (J10 O s b I); auto.
Qed.
