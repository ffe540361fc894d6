(** Every step of the network preserves what SpreadNetP.v states. *)
From Coq Require Import NArith ZArith List Lia Bool Permutation.
From Coq Require Import Init.Byte Strings.Byte.
From Coq Require Import ZifyBool ZifyNat ZifyN.
From Verif.Model Require Import OriginSys Base Coding Message ErrorCode Stream Frame FrameSys Map Publisher ReceiverSys Spread.
From Verif.Spec Require Import OriginSpec SpreadSpec.
From Verif.Proofs Require Import TableP MapP BroadcastP OriginP OriginTop RelaySysP ReceiverP SpreadP SpreadFrameP SpreadTurnP SpreadRecvP SpreadNetP.
Import ListNotations.
Open Scope nat_scope.
#[local] Arguments put : simpl never.
#[local] Arguments remove : simpl never.
#[local] Arguments lookup : simpl never.

Lemma map_set_same {A B} (f : A -> B) k x y l : nth_error l k = Some y -> f x = f y -> map f (set_nth k x l) = map f l.
Proof. revert k; induction l as [|z l IH]; intros [|k] H E; cbn in *; try discriminate; [injection H as ->; congruence|]. f_equal. eauto. Qed.
Lemma map_set_nth {A B} (f : A -> B) k x l : map f (set_nth k x l) = set_nth k (f x) (map f l).
Proof. revert k; induction l as [|z l IH]; intros [|k]; cbn; auto. f_equal. auto. Qed.
#[local] Arguments set_nth : simpl never.

(** * Single operations *)
Lemma publish_cases o p path b o' x : owf o -> ostep o (OPublish p path b) = (o', x) -> (x = OBad /\ o' = o) \/
  (length (os_cons o') = length (os_cons o) /\ os_prods o' = os_prods o /\
   forall c, get (os_cons o') c = option_map (fun k => if oc_linked k then oc_insert path b k else k) (get (os_cons o) c)).
Proof.
  intros W B. assert (X : x = OBad \/ x <> OBad) by (destruct x; auto; right; congruence). destruct X as [->|X].
  - left. split; auto. unfold ostep in B. destruct (get (os_prods o) p), (nth_error (os_closed o) b); try (injection B as <-; reflexivity).
    destruct (OriginSys.announce _ _ _ _ _ _); discriminate.
  - right. destruct (publish_step _ _ _ _ _ _ W B X) as (u & _ & _ & _ & _ & L & K & _). split; [exact L|]. split; [|exact K].
    unfold ostep in B. destruct (get (os_prods o) p), (nth_error (os_closed o) b); try (injection B as <- <-; congruence).
    destruct (OriginSys.announce _ _ _ _ _ _). injection B as <- <-. reflexivity.
Qed.

Lemma get_set_some {A} c (x : A) t k : get t c = Some k -> get (set_nth c (Some x) t) c = Some x.
Proof.
  intros H. unfold get in *. destruct (nth_error t c) eqn:E; [|discriminate].
  rewrite nth_error_set_eq; auto. apply nth_error_Some. congruence.
Qed.
Lemma get_lt {A} c (t : table A) k : get t c = Some k -> c < length t.
Proof. intros H. unfold get in *. destruct (nth_error t c) eqn:E; [|discriminate]. apply nth_error_Some. congruence. Qed.

Lemma cons_len o op o' x : owf o -> ostep o op = (o', x) -> length (os_cons o) <= length (os_cons o').
Proof.
  intros W B. destruct op;
    try (cbn in B; repeat match type of B with context [match ?e with _ => _ end] => destruct e end;
         injection B as <- <-; cbn; rewrite ?set_nth_length, ?app_length; cbn; lia).
  destruct (publish_cases _ _ _ _ _ _ W B) as [(_ & ->)|(L & _)]; lia.
Qed.
Lemma cons_len_run ops : forall o o' ev, owf o -> orun o ops = (o', ev) -> length (os_cons o) <= length (os_cons o').
Proof.
  induction ops as [|op ops IH]; intros o o' ev W R; cbn [orun] in R; [injection R as <- <-; auto|].
  destruct (ostep o op) as [o1 x] eqn:B. destruct (orun o1 ops) as [o2 t] eqn:R2. injection R as <- <-.
  pose proof (cons_len _ _ _ _ W B). pose proof (owf_step o op W) as W1. rewrite B in W1. cbn in W1. pose proof (IH _ _ _ W1 R2). lia.
Qed.
Lemma got_bound ops : forall o o' ev c, owf o -> orun o ops = (o', ev) -> length (os_cons o') <= c -> got c ev = [].
Proof.
  induction ops as [|op ops IH]; intros o o' ev c W R L; cbn [orun] in R; [injection R as <- <-; auto|].
  destruct (ostep o op) as [o1 x] eqn:B. destruct (orun o1 ops) as [o2 t] eqn:R2. injection R as <- <-.
  pose proof (cons_len _ _ _ _ W B) as L1. pose proof (owf_step o op W) as W1. rewrite B in W1. cbn in W1.
  unfold got. cbn [flat_map]. fold (got c t). rewrite (IH _ _ _ _ W1 R2 L), app_nil_r.
  pose proof (cons_len_run _ _ _ _ W1 R2) as L2.
  destruct op; auto. cbn. destruct x; auto. destruct (Nat.eqb_spec c0 c) as [->|]; auto. exfalso. cbn in B.
  destruct (get (os_cons o) c) eqn:E; [apply get_lt in E; lia|discriminate].
Qed.
Lemma prod_step o op o' x : owf o -> ostep o op = (o', x) -> op <> ODrop 0 -> get (os_prods o) 0 = Some tt -> get (os_prods o') 0 = Some tt.
Proof.
  intros W B N H. destruct op;
    try (cbn in B; repeat match type of B with context [match ?e with _ => _ end] => destruct e end; injection B as <- <-; exact H).
  - cbn in B. destruct (get (os_prods o) p); injection B as <- <-; auto. cbn. rewrite get_app. destruct (Nat.eqb_spec 0 (length (os_prods o))); auto.
  - cbn in B. destruct p as [|p]; [congruence|]. destruct (get (os_prods o) (S p)); injection B as <- <-; auto.
    cbn. rewrite get_set_ne; auto.
Qed.
Lemma keeps0_step o op o' x : owf o -> ostep o op = (o', x) -> op <> ODrop 0 -> op <> OCDrop 0 -> keeps0 o o'.
Proof.
  intros W B N1 N2 (H1 & k & H2). split; [eapply prod_step; eauto|].
  destruct (touches_cons 0 op) eqn:T.
  - destruct op; cbn in T; try discriminate; apply Nat.eqb_eq in T; subst; cbn in B; rewrite H2 in B; destruct k as [pre u tok [] l].
    + injection B as <- <-. eauto.
    + destruct u as [|[s b] u]; injection B as <- <-; cbn; eexists; eapply get_set_some; eauto.
    + destruct tok; [|destruct (l && os_alive o)]; injection B as <- <-; cbn; eauto; eexists; eapply get_set_some; eauto.
    + injection B as <- <-. eauto.
    + injection B as <- <-. cbn. eexists; eapply get_set_some; eauto.
    + injection B as <- <-. eauto.
    + congruence.
    + congruence.
  - destruct (keep_cons _ _ _ _ _ _ W B H2 T) as (k' & K & _). eauto.
Qed.
Lemma keeps0_trans a b c : keeps0 a b -> keeps0 b c -> keeps0 a c.
Proof. unfold keeps0. auto. Qed.

(** * Moves of one origin *)
Section Acts.
  Context (C : list bool) (os : list osys) (ls : list link) (hs : list hop) (mine : list nat) (P P' : pubs_fn) (G G' : got_fn)
          (n : nat) (o o' : osys) (ops : list oop) (ev : list oevent).
  Context (N : net C os ls hs mine P G) (M : moves os P P' G G' n o o' ops ev).

  Let W : owf o.
  Proof. destruct M as (H & _). apply (n_node _ _ _ _ _ _ _ N _ _ H). Qed.

  Lemma act_none : (forall c, In (n, c) (map lkey ls ++ map hkey hs) -> Forall (fun op => touches_cons c op = false) ops) ->
    (get (os_prods o) 0 = Some tt -> get (os_prods o') 0 = Some tt) ->
    (forall p, In p hs -> n = hp_dst p -> flat_map pub_of ev = [] /\ keeps0 o o') ->
    net C (set_nth n o' os) ls hs mine P' G'.
  Proof.
    intros T Pr D. pose proof M as (H & R & _). eapply net_move; eauto.
    - eapply cons_len_run; eauto.
    - intros c L. eapply got_bound; eauto.
    - intros p I E. apply (D p I E).
    - intros l I. eapply frame_link; eauto. intros ->. apply T. apply in_or_app. left. apply (in_map lkey) in I. exact I.
    - intros p I. eapply frame_hop; eauto. intros ->. apply T. apply in_or_app. right. apply (in_map hkey) in I. exact I.
  Qed.

  Lemma act_link k l l' : nth_error ls k = Some l -> ltri l' = ltri l -> link_ok C (set_nth n o' os) P' G' l' ->
    (forall c, (n, c) <> lkey l -> Forall (fun op => touches_cons c op = false) ops) ->
    (get (os_prods o) 0 = Some tt -> get (os_prods o') 0 = Some tt) ->
    (forall p, In p hs -> n = hp_dst p -> flat_map pub_of ev = [] /\ keeps0 o o') ->
    net C (set_nth n o' os) (set_nth k l' ls) hs mine P' G'.
  Proof.
    intros Hk E Ok T Pr D. pose proof M as (H & R & _). pose proof (n_owner _ _ _ _ _ _ _ N) as Ow. eapply net_move; eauto.
    - eapply cons_len_run; eauto.
    - intros c L. eapply got_bound; eauto.
    - intros p I En. apply (D p I En).
    - eapply map_set_same; eauto.
    - intros x I. apply in_set_nth in I as [->|(j & Nj & J)]; auto. eapply frame_link; eauto; [eapply nth_error_In; eauto|].
      intros En. apply T. intros Ek. apply Nj. apply NoDup_app_l in Ow. apply (map_nth_error lkey) in J, Hk.
      rewrite NoDup_nth_error in Ow. apply Ow; [apply nth_error_Some; congruence|]. rewrite J, Hk. f_equal. rewrite <- Ek. unfold lkey. congruence.
    - intros p I. eapply frame_hop; eauto. intros En. apply T. intros Ek. eapply NoDup_app_apart; [exact Ow| |apply (in_map hkey), I].
      unfold hkey. rewrite <- En, Ek. apply in_map. eapply nth_error_In; eauto.
  Qed.

  Lemma act_hop h p p' : nth_error hs h = Some p -> htri p' = htri p -> n = hp_src p -> hop_ok C (set_nth n o' os) P' G' p' ->
    (forall c, c <> hp_cons p -> Forall (fun op => touches_cons c op = false) ops) ->
    (get (os_prods o) 0 = Some tt -> get (os_prods o') 0 = Some tt) ->
    net C (set_nth n o' os) ls (set_nth h p' hs) mine P' G'.
  Proof.
    intros Hh E En Ok T Pr. pose proof M as (H & R & _). pose proof (n_owner _ _ _ _ _ _ _ N) as Ow.
    assert (In p hs) as Ip by (eapply nth_error_In; eauto).
    pose proof (n_hsrc _ _ _ _ _ _ _ N _ Ip) as (_ & Hd).
    eapply net_move; eauto.
    - eapply cons_len_run; eauto.
    - intros c L. eapply got_bound; eauto.
    - intros q I Eq. exfalso. apply (Hd q I). congruence.
    - eapply map_set_same; eauto.
    - intros l I. eapply frame_link; eauto. intros El. apply T. intros Ek. eapply NoDup_app_apart; [exact Ow|apply (in_map lkey), I|].
      unfold lkey. rewrite <- El, En, Ek. apply (in_map hkey) in Ip. exact Ip.
    - intros q I. apply in_set_nth in I as [->|(j & Nj & J)]; auto. assert (Iq : In q hs) by (eapply nth_error_In; eauto).
      eapply frame_hop; eauto.
      + intros Eq. apply T. intros Ek. apply Nj. assert (Ow2 : NoDup (map hkey hs)).
        { revert Ow. clear. induction (map lkey ls); cbn; auto. intros H. inversion H; auto. }
        apply (map_nth_error hkey) in J, Hh.
        rewrite NoDup_nth_error in Ow2. apply Ow2; [apply nth_error_Some; congruence|]. rewrite J, Hh. unfold hkey. congruence.
      + intros Eq. exfalso. apply (Hd q Iq). congruence.
  Qed.
End Acts.
