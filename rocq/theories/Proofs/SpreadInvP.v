(** Every step of the network preserves what SpreadNetP.v states: the steps. *)
From Coq Require Import NArith ZArith List Lia Bool Permutation.
From Coq Require Import Init.Byte Strings.Byte.
From Coq Require Import ZifyBool ZifyNat ZifyN.
From Verif.Model Require Import OriginSys Base Coding Message ErrorCode Stream Frame FrameSys Map Publisher ReceiverSys Spread.
From Verif.Spec Require Import OriginSpec SpreadSpec.
From Verif.Proofs Require Import TableP MapP BroadcastP OriginP OriginTop RelaySysP ReceiverP SpreadP SpreadFrameP SpreadTurnP SpreadRecvP SpreadNetP SpreadStepP.
Import ListNotations.
Open Scope nat_scope.
#[local] Arguments put : simpl never.
#[local] Arguments remove : simpl never.
#[local] Arguments lookup : simpl never.
#[local] Arguments set_nth : simpl never.

(** * The receiving loop *)
Lemma with_runs_id n p : length (hp_runs p) = n -> with_runs n p = p.
Proof. intros <-. destruct p. unfold with_runs. cbn. rewrite Nat.sub_diag. cbn. rewrite app_nil_r. reflexivity. Qed.
Lemma with_runs_twice n p : with_runs n (with_runs n p) = with_runs n p.
Proof.
  unfold with_runs at 1. cbn. set (l := hp_runs p ++ repeat ([], false) (n - length (hp_runs p))).
  assert (E : n - length l = 0) by (unfold l; rewrite app_length, repeat_length; lia). rewrite E. cbn. rewrite app_nil_r. reflexivity.
Qed.
Lemma all_closed_twice c c' os : all_closed c' (all_closed c os) = all_closed c' os.
Proof. unfold all_closed. rewrite map_map. reflexivity. Qed.

Lemma net_receive C os ls hs mine P P' G h p p1 r r' pubs :
  net C os ls hs mine P G -> nth_error hs h = Some p -> nth_error os (hp_dst p) = Some r ->
  received C (P (hp_dst p)) r r' pubs -> htri p1 = htri p ->
  (forall m, P' m = P m ++ (if Nat.eqb m (hp_dst p) then pubs else [])) ->
  (forall s b, In (s, b) pubs -> length C <= b) ->
  hop_ok (os_closed r') (all_closed (os_closed r') (set_nth (hp_dst p) r' os)) P' G p1 ->
  net (os_closed r') (all_closed (os_closed r') (set_nth (hp_dst p) r' os)) ls (map (with_runs (length (os_closed r'))) (set_nth h p1 hs)) mine P' G.
Proof.
  intros N Hh Hr [(C0 & ops & o1 & ev & E0 & G0 & L0 & R & F & T & Er & Ep & Eg) Own Gr] Tri HP Fresh Ok.
  set (C' := os_closed r') in *. set (n := hp_dst p) in *. set (OS := all_closed C' (set_nth n r' os)) in *.
  assert (Ip : In p hs) by (eapply nth_error_In; eauto).
  assert (Ln : n < length os) by (apply nth_error_Some; congruence).
  assert (GC0 : grows C C0) by (destruct E0 as [-> | ->]; [apply grows_refl|apply grows_snoc]).
  assert (Cl0 : forall b, closedb C0 b -> closedb C b).
  { intros b. destruct E0 as [-> | ->]; auto. rewrite closedb_snoc. auto. }
  pose proof (n_node _ _ _ _ _ _ _ N _ _ Hr) as Nr. pose proof (node_grow _ _ _ _ GC0 Nr) as Nr0.
  pose proof (node_run _ _ _ _ _ _ Nr0 R F) as Nr1. rewrite Ep in Nr1.
  assert (EOS : all_closed C' (set_nth n o1 (all_closed C0 os)) = OS).
  { unfold OS, all_closed. rewrite !map_set_nth, map_map. f_equal. rewrite Er. reflexivity. }
  assert (HG : forall m c, G m c = G m c ++ (if Nat.eqb m n then got c ev else [])).
  { intros m c. rewrite Eg. destruct (Nat.eqb m n); rewrite app_nil_r; reflexivity. }
  rewrite <- Ep in HP.
  assert (Rc : grows C0 C') by exact G0.
  assert (Hd : map hp_dst (map (with_runs (length C')) (set_nth h p1 hs)) = map hp_dst hs).
  { rewrite map_map. eapply (map_set_same hp_dst); eauto. unfold htri in Tri. congruence. }
  assert (Hk : map hkey (map (with_runs (length C')) (set_nth h p1 hs)) = map hkey hs).
  { rewrite map_map. eapply (map_set_same hkey); eauto. unfold htri in Tri. unfold hkey. congruence. }
  assert (IH : forall q, In q (map (with_runs (length C')) (set_nth h p1 hs)) ->
     q = p1 \/ exists j q0, j <> h /\ nth_error hs j = Some q0 /\ q = with_runs (length C') q0).
  { intros q I. apply in_map_iff in I as (q0 & <- & I). apply in_set_nth in I as [->|(j & Nj & J)].
    - left. apply with_runs_id. apply Ok.
    - right. eauto. }
  assert (IT : forall q, In q (map (with_runs (length C')) (set_nth h p1 hs)) -> exists q0, In q0 hs /\ htri q0 = htri q).
  { intros q I. apply IH in I as [->|(j & q0 & _ & J & ->)]; [exists p; auto|]. exists q0. split; [eapply nth_error_In; eauto|reflexivity]. }
  assert (OD : forall j q, j <> h -> nth_error hs j = Some q -> hp_dst q <> n).
  { intros j q Nj J E. apply Nj. pose proof (n_hdst _ _ _ _ _ _ _ N) as Nd. rewrite NoDup_nth_error in Nd. apply (map_nth_error hp_dst) in J.
    apply (map_nth_error hp_dst) in Hh. apply Nd; [apply nth_error_Some; congruence|]. rewrite J, Hh. f_equal. exact E. }
  assert (OW : forall m, owned OS (map (with_runs (length C')) (set_nth h p1 hs)) m <-> owned os hs m).
  { intros m. unfold owned, OS, all_closed. rewrite map_length, set_nth_length. split; intros (X & Y); split; auto; intros q I.
    - apply (in_map hp_dst) in I. rewrite <- Hd in I. apply in_map_iff in I as (q0 & E & I). rewrite <- E. auto.
    - destruct (IT _ I) as (q0 & I0 & E). injection E as _ _ E. rewrite <- E. auto. }
  assert (NT : forall m a, nth_error OS m = Some a -> if Nat.eqb m n then a = with_closed C' o1 else exists a0, nth_error os m = Some a0 /\ a = with_closed C' a0).
  { intros m a. unfold OS, all_closed. rewrite nth_error_map. destruct (Nat.eqb_spec m n) as [->|Nm].
    - rewrite nth_error_set_eq by auto. cbn. intros [= <-]. rewrite Er. reflexivity.
    - rewrite nth_error_set_ne by auto. destruct (nth_error os m) as [a0|]; [|discriminate]. cbn. intros [= <-]. eauto. }
  assert (PE : forall m, m <> n -> P' m = P m).
  { intros m Nm. rewrite HP. destruct (Nat.eqb_spec m n); [contradiction|apply app_nil_r]. }
  assert (PN : P' n = P n ++ pubs) by (rewrite HP, Nat.eqb_refl, Ep; reflexivity).
  assert (MV : nth_error (all_closed C0 os) n = Some (with_closed C0 r) /\ node C0 (P n) (with_closed C0 r) /\ orun (with_closed C0 r) ops = (o1, ev) /\ Forall calm ops /\
    (forall m, P' m = P m ++ (if Nat.eqb m n then flat_map pub_of ev else [])) /\ (forall m c, G m c = G m c ++ (if Nat.eqb m n then got c ev else []))).
  { split; [apply nth_closed; auto|]. auto. }
  assert (Len1 : length (os_cons r) <= length (os_cons o1)) by (exact (cons_len_run _ _ _ _ (nd_owf _ _ _ Nr0) R)).
  split.
  - intros E. unfold OS, all_closed in E. apply map_eq_nil in E. assert (X : length (set_nth n r' os) = 0) by (rewrite E; reflexivity). rewrite set_nth_length in X. lia.
  - intros m a H. apply NT in H. destruct (Nat.eqb_spec m n) as [->|Nm].
    + subst a. rewrite PN. apply (node_grow C0); auto.
    + destruct H as (a0 & A & ->). rewrite PE by auto. apply (node_grow C); auto. eapply n_node; eauto.
  - intros m L. unfold OS, all_closed in L. rewrite map_length, set_nth_length in L. rewrite PE by lia. apply (n_new _ _ _ _ _ _ _ N m L).
  - intros m a c H L. apply NT in H. destruct (Nat.eqb_spec m n) as [->|Nm].
    + subst a. cbn in L. eapply n_cons; eauto. lia.
    + destruct H as (a0 & A & ->). eapply n_cons; eauto.
  - intros m a O H. apply OW in O. apply NT in H. destruct (Nat.eqb_spec m n) as [->|Nm].
    + exfalso. destruct O as (_ & O). apply (O p Ip). reflexivity.
    + destruct H as (a0 & A & ->). cbn. eapply n_prod; eauto.
  - intros l I. rewrite <- EOS. apply (link_grow C0); auto. pose proof (link_grow C C0 _ _ _ _ GC0 (n_links _ _ _ _ _ _ _ N _ I)) as Lk.
    eapply link_move; try exact Lk; try exact MV; auto.
  - intros q I. apply IH in I as [->|(j & q0 & Nj & J & ->)]; auto. rewrite <- EOS.
    assert (Iq : In q0 hs) by (eapply nth_error_In; eauto). pose proof (OD _ _ Nj J) as Nd.
    pose proof (n_hops _ _ _ _ _ _ _ N _ Iq) as Hq. destruct (ho_dst _ _ _ _ _ Hq) as (rq & Hrq & _).
    assert (Bq : forall x, In x (P (hp_dst q0)) -> snd x < length C) by (intros x; apply (nd_bound _ _ _ (n_node _ _ _ _ _ _ _ N _ _ Hrq))).
    assert (Hq0 : hop_ok C0 (all_closed C0 os) P G (with_runs (length C0) q0)).
    { apply (hop_grow C); auto. }
    assert (Hq1 : hop_ok C0 (set_nth n o1 (all_closed C0 os)) P' G (with_runs (length C0) q0)).
    { eapply hop_move; try exact Hq0; try exact MV; auto. cbn. intros E. congruence. }
    rewrite L0 in Hq1. rewrite <- with_runs_twice. apply (hop_grow C0); auto; cbn.
    + intros s b Ib Cb. rewrite PE in Ib by auto. apply GC0. destruct (Own _ Cb) as [X|(s' & X)]; auto. exfalso.
      apply in_app_or in X as [X|X].
      * apply Nd. eapply (n_apart _ _ _ _ _ _ _ N); eauto.
      * apply Fresh in X. apply Bq in Ib. cbn in Ib. lia.
    + intros x Ib. rewrite PE in Ib by auto. apply Bq in Ib. destruct GC0. lia.
  - intros l I. apply OW. eapply n_ldst; eauto.
  - intros q I. destruct (IT _ I) as (q0 & I0 & E). injection E as E _ _. rewrite <- E. apply OW. eapply n_hsrc; eauto.
  - rewrite Hd. apply N.
  - rewrite Hk. apply N.
  - rewrite Hk. intros m c I. destruct (n_bound _ _ _ _ _ _ _ N _ _ I) as (a & A & L). destruct (Nat.eq_dec m n) as [->|Nm].
    + exists (with_closed C' o1). split; [rewrite <- EOS; apply nth_closed, nth_error_set_eq; unfold all_closed; rewrite map_length; auto|].
      cbn. assert (a = r) by congruence. subst a. lia.
    + exists (with_closed C' a). split; auto. unfold OS. apply nth_closed. rewrite nth_error_set_ne; auto.
  - intros b I. destruct (n_mine _ _ _ _ _ _ _ N b I) as (L & D). split; [destruct GC0, Rc; lia|]. intros q s Iq.
    destruct (IT _ Iq) as (q0 & I0 & E). injection E as _ _ E. rewrite <- E. destruct (Nat.eq_dec (hp_dst q0) n) as [En|Nn]; [|rewrite PE by auto; auto].
    rewrite En, PN. intros X. apply in_app_or in X as [X|X]; [apply (D p s Ip); exact X|]. apply Fresh in X. lia.
  - intros q q' s s' b Iq Iq'. destruct (IT _ Iq) as (q0 & I0 & E). injection E as _ _ E. destruct (IT _ Iq') as (q1 & I1 & E'). injection E' as _ _ E'.
    rewrite <- E, <- E'. clear E E' Iq Iq' q q'.
    assert (Bq : forall q s b, In q hs -> In (s, b) (P (hp_dst q)) -> b < length C).
    { intros q t d Iq X. destruct (ho_dst _ _ _ _ _ (n_hops _ _ _ _ _ _ _ N _ Iq)) as (rq & Hrq & _). apply (nd_bound _ _ _ (n_node _ _ _ _ _ _ _ N _ _ Hrq)) in X. exact X. }
    destruct (Nat.eq_dec (hp_dst q0) n) as [En|Nn]; destruct (Nat.eq_dec (hp_dst q1) n) as [En'|Nn']; try congruence.
    + rewrite (PE _ Nn'). rewrite En, PN. intros X Y. apply in_app_or in X as [X|X]; [rewrite <- En in *; eapply n_apart; eauto|]. apply Fresh in X. apply Bq in Y; auto. lia.
    + rewrite (PE _ Nn). rewrite En', PN. intros Y X. apply in_app_or in X as [X|X]; [rewrite <- En' in *; eapply n_apart; eauto|]. apply Fresh in X. apply Bq in Y; auto. lia.
    + rewrite !PE by auto. eapply n_apart; eauto.
Qed.

(** * Steps *)
Definition at_n (n : nat) (d : list (nat * oevent)) : list oevent := flat_map (fun e => if Nat.eqb (fst e) n then [snd e] else []) d.
Definition net_s (s : spread) (P : pubs_fn) (G : got_fn) : Prop := net (sp_closed s) (sp_origins s) (sp_links s) (sp_hops s) (sp_mine s) P G.

Lemma at_map n m (ev : list oevent) : at_n m (map (fun e => (n, e)) ev) = if Nat.eqb m n then ev else [].
Proof.
  unfold at_n. induction ev as [|e ev IH]; cbn; [destruct (Nat.eqb m n); reflexivity|]. rewrite IH, Nat.eqb_sym. destruct (Nat.eqb m n); reflexivity.
Qed.

Lemma on_some n op os o o' x : nth_error os n = Some o -> ostep o op = (o', x) -> on_origin n op os = (set_nth n o' os, [(n, (op, x))]).
Proof. intros H B. unfold on_origin. rewrite H, B. reflexivity. Qed.

Lemma own_iff s n : own s n = true <-> owned (sp_origins s) (sp_hops s) n.
Proof.
  unfold own, owned. rewrite andb_true_iff, negb_true_iff, Nat.ltb_lt. split; intros (L & H); split; auto.
  - intros p I E. assert (X : existsb (fun h => Nat.eqb (hp_dst h) n) (sp_hops s) = true); [|congruence].
    apply existsb_exists. exists p. split; auto. apply Nat.eqb_eq. auto.
  - destruct (existsb (fun h => Nat.eqb (hp_dst h) n) (sp_hops s)) eqn:X; auto. apply existsb_exists in X as (p & I & E). apply Nat.eqb_eq in E. exfalso. eapply H; eauto.
Qed.
Lemma held_iff s n c : held s n c = true <-> In (n, c) (map lkey (sp_links s) ++ map hkey (sp_hops s)).
Proof.
  unfold held. rewrite orb_true_iff, in_app_iff, !existsb_exists, !in_map_iff. unfold lkey, hkey.
  split; (intros [(x & H)|(x & H)]; [left|right]); exists x.
  - destruct H as (I & E). apply andb_true_iff in E as (E1 & E2). apply Nat.eqb_eq in E1, E2. split; congruence.
  - destruct H as (I & E). apply andb_true_iff in E as (E1 & E2). apply Nat.eqb_eq in E1, E2. split; congruence.
  - destruct H as (E & I). injection E as <- <-. rewrite !Nat.eqb_refl. auto.
  - destruct H as (E & I). injection E as <- <-. rewrite !Nat.eqb_refl. auto.
Qed.

Lemma closed_set os n o o' : nth_error os n = Some o -> os_closed o' = os_closed o ->
  match set_nth n o' os with a :: _ => os_closed a | [] => [] end = match os with a :: _ => os_closed a | [] => [] end.
Proof. destruct os as [|a os]; destruct n as [|n]; intros H E; cbn in *; try discriminate; auto. injection H as ->. exact E. Qed.

Lemma calm_closed o op o' x : ostep o op = (o', x) -> calm op -> os_closed o' = os_closed o.
Proof.
  intros B F. destruct op; try contradiction;
    cbn in B; repeat match type of B with context [match ?e with _ => _ end] => destruct e end; injection B as <- <-; reflexivity.
Qed.
Lemma run_closed ops : forall o o' ev, orun o ops = (o', ev) -> Forall calm ops -> os_closed o' = os_closed o.
Proof.
  induction ops as [|op ops IH]; intros o o' ev R F; cbn [orun] in R; [injection R as <- <-; auto|].
  destruct (ostep o op) as [o1 x] eqn:B. destruct (orun o1 ops) as [o2 t] eqn:R2. injection R as <- <-.
  rewrite (IH _ _ _ R2 (Forall_inv_tail F)). exact (calm_closed _ _ _ _ B (Forall_inv F)).
Qed.

Definition Pd (d : list (nat * oevent)) (P : pubs_fn) : pubs_fn := fun m => P m ++ flat_map pub_of (at_n m d).
Definition Gd (d : list (nat * oevent)) (G : got_fn) : got_fn := fun m c => G m c ++ got c (at_n m d).

Lemma moves_d os P G n o o' ops ev : nth_error os n = Some o -> orun o ops = (o', ev) -> Forall calm ops ->
  moves os P (Pd (map (fun e => (n, e)) ev) P) G (Gd (map (fun e => (n, e)) ev) G) n o o' ops ev.
Proof.
  intros H R F. split; [exact H|]. split; [exact R|]. split; [exact F|]. unfold Pd, Gd. split.
  - intros m. rewrite at_map. destruct (Nat.eqb m n); reflexivity.
  - intros m c. rewrite at_map. destruct (Nat.eqb m n); reflexivity.
Qed.
Lemma net_nil C os ls hs mine P G : net C os ls hs mine P G -> net C os ls hs mine (Pd [] P) (Gd [] G).
Proof. apply net_ext; intros; apply app_nil_r. Qed.

Section Step.
  Context (s : spread) (P : pubs_fn) (G : got_fn) (N : net_s s P G).
  Let os := sp_origins s.
  Let C := sp_closed s.

  Lemma one_op n op o o' x : nth_error os n = Some o -> ostep o op = (o', x) -> calm op -> op <> ODrop 0 ->
    (forall c, held s n c = true -> touches_cons c op = false) ->
    (forall p, In p (sp_hops s) -> n = hp_dst p -> pub_of (op, x) = [] /\ op <> OCDrop 0) ->
    net C (set_nth n o' os) (sp_links s) (sp_hops s) (sp_mine s) (Pd [(n, (op, x))] P) (Gd [(n, (op, x))] G).
  Proof.
    intros H B F D T X. pose proof (nd_owf _ _ _ (n_node _ _ _ _ _ _ _ N _ _ H)) as W.
    assert (M : moves os P (Pd [(n, (op, x))] P) G (Gd [(n, (op, x))] G) n o o' [op] [(op, x)]).
    { apply (moves_d os P G n o o' [op] [(op, x)]); auto. cbn [orun]. rewrite B. reflexivity. }
    apply (act_none _ _ _ _ _ _ _ _ _ _ _ _ _ _ N M).
    - intros c I. apply held_iff in I. repeat constructor. auto.
    - eapply prod_step; eauto.
    - intros p I E. destruct (X p I E) as (X1 & X2). split; [cbn [flat_map]; rewrite X1; reflexivity|]. eapply keeps0_step; eauto.
  Qed.

  Lemma closed_one n op o o' x : nth_error os n = Some o -> ostep o op = (o', x) -> calm op ->
    match set_nth n o' os with a :: _ => os_closed a | [] => [] end = C.
  Proof. intros H B F. eapply closed_set; eauto. eapply calm_closed; eauto. Qed.

  (** The application publishes and uses its origins; cleanup tasks run. *)
  Lemma step_at n op l : calm op -> op <> ODrop 0 ->
    (forall c, held s n c = true -> touches_cons c op = false) ->
    (forall p o o' y, In p (sp_hops s) -> n = hp_dst p -> nth_error os n = Some o -> ostep o op = (o', y) -> pub_of (op, y) = [] /\ op <> OCDrop 0) ->
    on_origin n op os = l -> net_s (with_origins s (fst l)) (Pd (snd l) P) (Gd (snd l) G).
  Proof.
    intros F D T X <-. unfold on_origin. destruct (nth_error os n) as [o|] eqn:H.
    - destruct (ostep o op) as [o' y] eqn:B. cbn [fst snd]. unfold net_s, with_origins. cbn [sp_origins sp_links sp_hops sp_mine].
      unfold sp_closed. cbn [sp_origins]. rewrite (closed_one _ _ _ _ _ H B F). eapply one_op; eauto.
    - cbn [fst snd]. unfold with_origins. destruct s; cbn in *. apply net_nil. exact N.
  Qed.

  (** A broadcast of the application is made or ends. *)
  Lemma step_new : os <> [] -> net_s (Spread (map (with_closed (C ++ [false])) os) (sp_links s) (map (with_runs (length (C ++ [false]))) (sp_hops s)) (sp_mine s ++ [length C])) P G.
  Proof.
    intros Ne. assert (X : net (C ++ [false]) (all_closed (C ++ [false]) os) (sp_links s) (map (with_runs (length (C ++ [false]))) (sp_hops s)) (sp_mine s) P G).
    { apply (net_grow C); auto; [apply grows_snoc|]. intros p t b _ _. rewrite closedb_snoc. auto. }
    unfold net_s, sp_closed. cbn [sp_origins sp_links sp_hops sp_mine].
    replace (match map (with_closed (C ++ [false])) os with a :: _ => os_closed a | [] => [] end) with (C ++ [false]) by (destruct os; [congruence|reflexivity]).
    destruct X as [A1 A2 A3 A4 A5 A6 A7 A8 A9 A10 A11 A12 A13 A14]. split; auto. intros b I. apply in_app_or in I as [I|[<-|[]]]; auto. split; [rewrite app_length; cbn; lia|].
    intros p t I Ib. apply in_map_iff in I as (q & <- & I). cbn in Ib.
    destruct (ho_dst _ _ _ _ _ (n_hops _ _ _ _ _ _ _ N _ I)) as (r & Hr & _). apply (nd_bound _ _ _ (n_node _ _ _ _ _ _ _ N _ _ Hr)) in Ib. cbn in Ib. unfold C in Ib. lia.
  Qed.
  Lemma step_end b : In b (sp_mine s) -> net_s (everywhere (set_nth b true C) s) P G.
  Proof.
    intros I. destruct (n_mine _ _ _ _ _ _ _ N _ I) as (L & D).
    assert (Ne : os <> []) by (intros E; apply (n_closed _ _ _ _ _ _ _ N) in E; rewrite E in L; cbn in L; lia).
    assert (X : net (set_nth b true C) (all_closed (set_nth b true C) os) (sp_links s) (map (with_runs (length (set_nth b true C))) (sp_hops s)) (sp_mine s) P G).
    { apply (net_grow C); auto; [apply grows_set|]. intros p t c Ip Ic Cc. apply closedb_set in Cc as [Cc|(-> & _)]; auto. exfalso. eapply D; eauto. }
    unfold net_s, everywhere, sp_closed. cbn [sp_origins sp_links sp_hops sp_mine].
    replace (match map (with_closed (set_nth b true C)) (sp_origins s) with a :: _ => os_closed a | [] => [] end) with (set_nth b true C); [exact X|].
    fold os. destruct os; [congruence|reflexivity].
  Qed.

  (** The network grows. *)
  Lemma node_new : node C [] (with_closed C osys_new).
  Proof.
    split; cbn; auto; try discriminate.
    - apply owf_closed, owf_new.
    - intros [|k]; discriminate.
    - intros [|k]; discriminate.
    - intros _ [|k]; discriminate.
    - intros x [].
  Qed.
  Lemma snoc_closed o : os_closed o = C -> match os ++ [o] with a :: _ => os_closed a | [] => [] end = C.
  Proof.
    intros E. unfold C, sp_closed, os in *. destruct (sp_origins s); auto.
  Qed.
  Lemma step_node : net_s (with_origins s (os ++ [with_closed C osys_new])) P G.
  Proof.
    unfold net_s, with_origins, sp_closed. cbn [sp_origins sp_links sp_hops sp_mine]. rewrite (snoc_closed (with_closed C osys_new)) by reflexivity.
    apply net_origin; auto. apply node_new.
  Qed.

  Lemma new_cons a pre ks o o' x : owned os (sp_hops s) a -> nth_error os a = Some o -> ostep o (OConsume 0 pre ks) = (o', x) ->
    let d := [(a, (OConsume 0 pre ks, x))] in
    net C (set_nth a o' os) (sp_links s) (sp_hops s) (sp_mine s) (Pd d P) (Gd d G) /\
    tracks C (Pd d P a) (Gd d G a (length (os_cons o))) o' (length (os_cons o)) pre false /\
    Gd d G a (length (os_cons o)) = [] /\ length (os_cons o) < length (os_cons o') /\
    ~ In (a, length (os_cons o)) (map lkey (sp_links s) ++ map hkey (sp_hops s)).
  Proof.
    intros O H B d. pose proof (n_node _ _ _ _ _ _ _ N _ _ H) as Nd. pose proof (n_prod _ _ _ _ _ _ _ N _ _ O H) as Pr.
    assert (EG : Gd d G a (length (os_cons o)) = []).
    { unfold Gd, d. rewrite (n_cons _ _ _ _ _ _ _ N _ _ _ H) by auto. cbn. rewrite Nat.eqb_refl. reflexivity. }
    assert (EP : Pd d P a = P a) by (unfold Pd, d; cbn; rewrite Nat.eqb_refl; apply app_nil_r).
    split; [|split; [|split; [exact EG|split]]].
    - apply (one_op a (OConsume 0 pre ks) o o' x); auto; try discriminate; [exact I|]. intros p Ip E. split; [reflexivity|discriminate].
    - rewrite EG, EP. eapply tracks_new; eauto.
    - cbn in B. rewrite Pr in B. injection B as <- <-. cbn. rewrite app_length. cbn. lia.
    - intros I. destruct (n_bound _ _ _ _ _ _ _ N _ _ I) as (a0 & A & L). assert (a0 = o) by (unfold os in *; congruence). subst a0. lia.
  Qed.

  Lemma step_link a pre ks b add o o' x : owned os (sp_hops s) a -> owned os (sp_hops s) b -> nth_error os a = Some o -> ostep o (OConsume 0 pre ks) = (o', x) ->
    let d := [(a, (OConsume 0 pre ks, x))] in
    net_s (Spread (set_nth a o' os) (sp_links s ++ [Link a (length (os_cons o)) pre b add false None false]) (sp_hops s) (sp_mine s)) (Pd d P) (Gd d G).
  Proof.
    intros Oa Ob H B d. destruct (new_cons a pre ks o o' x Oa H B) as (N1 & K & EG & L & F). fold d in N1, K, EG.
    unfold net_s, sp_closed. cbn [sp_origins sp_links sp_hops sp_mine]. rewrite (closed_one a (OConsume 0 pre ks) o o' x H B) by exact I.
    assert (La : a < length os) by (apply nth_error_Some; congruence).
    apply net_link; auto.
    - split; cbn [lk_src lk_cons lk_pre lk_dst lk_add lk_wait lk_hold lk_over].
      + exists o'. split; [apply nth_error_set_eq; auto|]. exact K.
      + rewrite EG. intros suf b0 [].
      + discriminate.
    - cbn. destruct Ob as (X & Y). split; auto. rewrite set_nth_length. auto.
    - cbn. exists o'. split; [apply nth_error_set_eq; auto|auto].
  Qed.

  Lemma recv_new pre : os_closed (with_closed C (rv_origin (rsys_new pre))) = C /\ node C [] (with_closed C (rv_origin (rsys_new pre))) /\
    get (os_prods (with_closed C (rv_origin (rsys_new pre)))) 0 = Some tt /\ (exists k, get (os_cons (with_closed C (rv_origin (rsys_new pre)))) 0 = Some k) /\
    tracks C [] [] (with_closed C (rv_origin (rsys_new pre))) 0 pre false /\ length (os_cons (with_closed C (rv_origin (rsys_new pre)))) = 1.
  Proof.
    assert (Nd : node [] [] osys_new).
    { split; cbn; auto; try discriminate; [apply owf_new| | | |]; try (intros [|k]; discriminate); try (intros _ [|k]; discriminate). intros x []. }
    destruct (ostep osys_new (OConsume 0 pre [])) as [o1 x] eqn:B. assert (E : rv_origin (rsys_new pre) = o1) by (unfold rsys_new; cbn [rv_origin]; rewrite B; reflexivity).
    rewrite E. pose proof (node_step _ _ _ _ _ _ Nd B I) as N1. cbn [pub_of] in N1.
    pose proof (tracks_new _ _ _ _ _ _ _ _ _ Nd B eq_refl eq_refl) as K. cbn in B. injection B as <- <-.
    assert (Gr : grows [] C) by (split; [cbn; lia|]; intros b H; apply closedb_lt in H; cbn in H; lia).
    split; [reflexivity|]. split; [apply (node_grow []); auto|]. split; [reflexivity|]. split; [eexists; reflexivity|]. split; [|reflexivity].
    eapply tracks_grow; eauto.
  Qed.

  Lemma step_hop a pre ks b add o o' x : owned os (sp_hops s) a -> owned os (sp_hops s) b -> nth_error os a = Some o -> ostep o (OConsume 0 pre ks) = (o', x) ->
    let d := [(a, (OConsume 0 pre ks, x))] in let r := length os in
    net_s (Spread (set_nth a o' os ++ [with_closed C (rv_origin (rsys_new pre))]) (sp_links s ++ [Link r 0 pre b add false None false])
      (sp_hops s ++ [Hop a (length (os_cons o)) pre r ann_new [] [] None (repeat ([], false) (length C)) true]) (sp_mine s)) (Pd d P) (Gd d G).
  Proof.
    intros Oa Ob H B d r. destruct (new_cons a pre ks o o' x Oa H B) as (N1 & K & EG & L & F). fold d in N1, K, EG.
    destruct (recv_new pre) as (Cr & Nr & Pr & Kr & Tr & Lr). set (r0 := with_closed C (rv_origin (rsys_new pre))) in *.
    assert (La : a < length os) by (apply nth_error_Some; congruence).
    unfold net_s, sp_closed. cbn [sp_origins sp_links sp_hops sp_mine].
    replace (match set_nth a o' os ++ [r0] with h :: _ => os_closed h | [] => [] end) with C.
    2:{ rewrite <- (closed_one a (OConsume 0 pre ks) o o' x H B I). destruct (set_nth a o' os) eqn:E; auto.
        exfalso. assert (X : length (set_nth a o' os) = 0) by (rewrite E; reflexivity). rewrite set_nth_length in X. lia. }
    pose proof (net_origin _ _ _ _ _ _ _ _ N1 Nr Pr) as N2.
    assert (Lo : length (set_nth a o' os) = r) by (apply set_nth_length).
    assert (Hr : nth_error (set_nth a o' os ++ [r0]) r = Some r0) by (rewrite <- Lo, nth_error_app2, Nat.sub_diag by lia; reflexivity).
    assert (Ha : nth_error (set_nth a o' os ++ [r0]) a = Some o') by (rewrite nth_error_app1 by lia; apply nth_error_set_eq; auto).
    assert (EP : Pd d P r = []).
    { unfold Pd, d. destruct (n_new _ _ _ _ _ _ _ N r) as (E & _); [auto|]. rewrite E. cbn. destruct (Nat.eqb_spec a r); [lia|reflexivity]. }
    assert (EGr : Gd d G r 0 = []).
    { unfold Gd, d. destruct (n_new _ _ _ _ _ _ _ N r) as (_ & E); [auto|]. rewrite E. cbn. destruct (Nat.eqb_spec a r); [lia|reflexivity]. }
    assert (Hdst : forall p, In p (sp_hops s) -> hp_dst p < r).
    { intros p Ip. destruct (ho_dst _ _ _ _ _ (n_hops _ _ _ _ _ _ _ N _ Ip)) as (r1 & Hr1 & _). apply nth_error_Some. unfold os. congruence. }
    assert (Kb : forall n c, In (n, c) (map lkey (sp_links s) ++ map hkey (sp_hops s)) -> n < r).
    { intros n c I. destruct (n_bound _ _ _ _ _ _ _ N _ _ I) as (a0 & A & _). apply nth_error_Some. unfold os. congruence. }
    set (p := Hop a (length (os_cons o)) pre r ann_new [] [] None (repeat ([], false) (length C)) true).
    assert (Okp : hop_ok C (set_nth a o' os ++ [r0]) (Pd d P) (Gd d G) p).
    { split; cbn [p hp_src hp_dst hp_cons hp_pre hp_ann hp_wire hp_map hp_left hp_open hp_runs ann_new an_queue an_gone an_closed an_tasks an_over]; rewrite ?EG, ?EP; auto; try discriminate; try solve [intros ? ? []]; try solve [intros ? []].
      - exists o'. split; [exact Ha|]. intros _. rewrite <- EG at 1. exact K.
      - exists r0. split; [exact Hr|]. auto.
      - apply repeat_length.
      - intros t b0 X. apply nth_error_In, repeat_spec in X. discriminate.
      - constructor.
      - intros _. split; cbn [p hp_src hp_dst hp_cons hp_pre hp_ann hp_wire hp_map hp_left hp_open hp_runs ann_new an_queue an_gone an_closed an_tasks an_over map]; try discriminate; try (constructor; fail).
        + congruence.
        + intros _ t b0 [].
        + intros t b0 [].
        + intros t b0 _ [].
        + intros _ t. exists Fresh, Fresh. split; [cbn; auto|]. split; [constructor|]. cbn. auto.
        + intros _ t b0 []. }
    assert (N3 : net C (set_nth a o' os ++ [r0]) (sp_links s) (sp_hops s ++ [p]) (sp_mine s) (Pd d P) (Gd d G)).
    { apply net_hop; auto.
      - cbn. destruct Oa as (X & Y). split; auto. rewrite app_length, set_nth_length. lia.
      - cbn. lia.
      - cbn. split; [rewrite app_length, set_nth_length; cbn; unfold r; lia|]. intros q Iq. specialize (Hdst _ Iq). lia.
      - intros l Il. cbn. destruct (n_ldst _ _ _ _ _ _ _ N _ Il) as (X & _). fold os in X. unfold r. lia.
      - intros q Iq. cbn. destruct (n_hsrc _ _ _ _ _ _ _ N _ Iq) as (X & _). fold os in X. unfold r. lia.
      - cbn. exists o'. split; [exact Ha|exact L]. }
    apply net_link; auto.
    - split; cbn [lk_src lk_cons lk_pre lk_dst lk_add lk_wait lk_hold lk_over]; rewrite ?EGr, ?EP; try discriminate.
      + exists r0. split; [exact Hr|exact Tr].
      + intros suf b0 [].
    - cbn. destruct Ob as (X & Y). split; [rewrite app_length, set_nth_length; lia|]. intros q Iq. apply in_app_or in Iq as [Iq|[<-|[]]]; auto. cbn. unfold r. lia.
    - unfold lkey. cbn. rewrite map_app, app_assoc. intros I. apply in_app_or in I as [I|[E|[]]]; [apply Kb in I; lia|]. cbn in E. unfold hkey in E. cbn in E. injection E as E _. unfold r in E. lia.
    - cbn. exists r0. split; [exact Hr|]. rewrite Lr. lia.
  Qed.
End Step.
