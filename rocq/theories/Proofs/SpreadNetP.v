(** The whole network: what every step preserves. *)
From Coq Require Import NArith ZArith List Lia Bool Permutation.
From Coq Require Import Init.Byte Strings.Byte.
From Coq Require Import ZifyBool ZifyNat ZifyN.
From Verif.Model Require Import OriginSys Base Coding Message ErrorCode Stream Frame FrameSys Map Publisher ReceiverSys Spread.
From Verif.Spec Require Import OriginSpec SpreadSpec.
From Verif.Proofs Require Import TableP MapP BroadcastP OriginP OriginTop RelaySysP ReceiverP SpreadP SpreadFrameP SpreadTurnP SpreadRecvP.
Import ListNotations.
Open Scope nat_scope.
#[local] Arguments put : simpl never.
#[local] Arguments remove : simpl never.
#[local] Arguments lookup : simpl never.

Definition lkey (l : link) : nat * nat := (lk_src l, lk_cons l).
Definition hkey (p : hop) : nat * nat := (hp_src p, hp_cons p).
Definition ltri (l : link) : nat * nat * nat := (lk_src l, lk_cons l, lk_dst l).
Definition htri (p : hop) : nat * nat * nat := (hp_src p, hp_cons p, hp_dst p).
Definition owned (os : list osys) (hs : list hop) (n : nat) : Prop := n < length os /\ forall p, In p hs -> hp_dst p <> n.

Record net (C : list bool) (os : list osys) (ls : list link) (hs : list hop) (mine : list nat) (P : pubs_fn) (G : got_fn) : Prop := {
  n_closed : os = [] -> C = [];
  n_node : forall n o, nth_error os n = Some o -> node C (P n) o;
  n_new : forall n, length os <= n -> P n = [] /\ forall c, G n c = [];
  n_cons : forall n o c, nth_error os n = Some o -> length (os_cons o) <= c -> G n c = [];
  n_prod : forall n o, owned os hs n -> nth_error os n = Some o -> get (os_prods o) 0 = Some tt;
  n_links : forall l, In l ls -> link_ok C os P G l;
  n_hops : forall p, In p hs -> hop_ok C os P G p;
  n_ldst : forall l, In l ls -> owned os hs (lk_dst l);
  n_hsrc : forall p, In p hs -> owned os hs (hp_src p);
  n_hdst : NoDup (map hp_dst hs);
  n_owner : NoDup (map lkey ls ++ map hkey hs);
  n_bound : forall n c, In (n, c) (map lkey ls ++ map hkey hs) -> exists o, nth_error os n = Some o /\ c < length (os_cons o);
  n_mine : forall b, In b mine -> b < length C /\ forall p s, In p hs -> ~ In (s, b) (P (hp_dst p));
  n_apart : forall p q s s' b, In p hs -> In q hs -> In (s, b) (P (hp_dst p)) -> In (s', b) (P (hp_dst q)) -> hp_dst p = hp_dst q }.

Lemma link_ext C os P P' G G' l : (forall n, P' n = P n) -> (forall n c, G' n c = G n c) -> link_ok C os P G l -> link_ok C os P' G' l.
Proof. intros HP HG [H1 H2 H3]. split; rewrite ?HP, ?HG; auto. Qed.
Lemma hop_ext C os P P' G G' p : (forall n, P' n = P n) -> (forall n c, G' n c = G n c) -> hop_ok C os P G p -> hop_ok C os P' G' p.
Proof. intros HP HG []. split; rewrite ?HP, ?HG; auto. Qed.
Lemma net_ext C os ls hs mine P P' G G' : (forall n, P' n = P n) -> (forall n c, G' n c = G n c) ->
  net C os ls hs mine P G -> net C os ls hs mine P' G'.
Proof.
  intros HP HG []. split; auto.
  - intros n o H. rewrite HP. auto.
  - intros n H. rewrite HP. split; [apply n_new0; auto|]. intros c. rewrite HG. apply n_new0. auto.
  - intros n o c H L. rewrite HG. eauto.
  - intros l I. eapply link_ext; eauto.
  - intros l I. eapply hop_ext; eauto.
  - intros b I. destruct (n_mine0 b I) as (L & D). split; auto. intros p s Ip. rewrite HP. eauto.
  - intros p q s s' b Ip Iq. rewrite !HP. eauto.
Qed.

(** * One origin moves *)
Lemma in_set_nth {A} k (x y : A) l : In y (set_nth k x l) -> y = x \/ exists j, j <> k /\ nth_error l j = Some y.
Proof.
  intros I. apply In_nth_error in I as (j & J). destruct (Nat.eq_dec j k) as [->|N].
  - destruct (lt_dec k (length l)) as [L|L]; [rewrite nth_error_set_eq in J by auto; left; congruence|].
    exfalso. assert (nth_error (set_nth k x l) k = None) by (apply nth_error_None; rewrite set_nth_length; lia). congruence.
  - rewrite nth_error_set_ne in J by auto. right. eauto.
Qed.

Lemma untouched_got c ops : forall o o' ev, orun o ops = (o', ev) -> Forall (fun op => touches_cons c op = false) ops -> got c ev = [].
Proof.
  induction ops as [|op ops IH]; intros o o' ev R F; cbn [orun] in R; [injection R as <- <-; reflexivity|].
  destruct (ostep o op) as [o1 x]. destruct (orun o1 ops) as [o2 t] eqn:R2. injection R as <- <-.
  unfold got. cbn [flat_map]. fold (got c t). rewrite (IH _ _ _ R2 (Forall_inv_tail F)), app_nil_r.
  pose proof (Forall_inv F) as T. destruct op; auto. cbn in T. cbn. destruct x; auto. rewrite T. reflexivity.
Qed.

(** The first consumer and the first producer stay. *)
Definition keeps0 (o o' : osys) : Prop :=
  get (os_prods o) 0 = Some tt /\ (exists k, get (os_cons o) 0 = Some k) -> get (os_prods o') 0 = Some tt /\ exists k, get (os_cons o') 0 = Some k.

Section Move.
  Context (C : list bool) (os : list osys) (ls ls' : list link) (hs hs' : list hop) (mine : list nat) (P P' : pubs_fn) (G G' : got_fn)
          (n : nat) (o o' : osys) (ops : list oop) (ev : list oevent).
  Definition moves : Prop := nth_error os n = Some o /\ orun o ops = (o', ev) /\ Forall calm ops /\
    (forall m, P' m = P m ++ (if Nat.eqb m n then flat_map pub_of ev else [])) /\
    (forall m c, G' m c = G m c ++ (if Nat.eqb m n then got c ev else [])).

  Lemma frame_link l : net C os ls hs mine P G -> moves -> In l ls ->
    (n = lk_src l -> Forall (fun op => touches_cons (lk_cons l) op = false) ops) -> link_ok C (set_nth n o' os) P' G' l.
  Proof.
    intros N (H & R & F & HP & HG) I T. eapply link_move; try apply (n_links _ _ _ _ _ _ _ N _ I).
    - split; [exact H|]. split; [apply (n_node _ _ _ _ _ _ _ N _ _ H)|]. split; [exact R|]. split; [exact F|]. split; [exact HP|exact HG].
    - auto.
    - intros _ E. eapply untouched_got; eauto.
  Qed.
  Lemma frame_hop p : net C os ls hs mine P G -> moves -> In p hs ->
    (n = hp_src p -> Forall (fun op => touches_cons (hp_cons p) op = false) ops) ->
    (n = hp_dst p -> flat_map pub_of ev = [] /\ keeps0 o o') ->
    hop_ok C (set_nth n o' os) P' G' p.
  Proof.
    intros N (H & R & F & HP & HG) I T D. eapply hop_move; try apply (n_hops _ _ _ _ _ _ _ N _ I).
    - split; [exact H|]. split; [apply (n_node _ _ _ _ _ _ _ N _ _ H)|]. split; [exact R|]. split; [exact F|]. split; [exact HP|exact HG].
    - auto.
    - intros _ E. eapply untouched_got; eauto.
    - intros E. destruct (D E) as (D1 & D2). split; auto. intros L. apply D2. subst n.
      destruct (ho_dst _ _ _ _ _ (n_hops _ _ _ _ _ _ _ N _ I)) as (r & Hr & K). assert (r = o) by congruence. subst r. auto.
  Qed.

  Lemma net_move : net C os ls hs mine P G -> moves ->
    length (os_cons o) <= length (os_cons o') -> (forall c, length (os_cons o') <= c -> got c ev = []) ->
    (owned os hs n -> get (os_prods o) 0 = Some tt -> get (os_prods o') 0 = Some tt) ->
    (forall p, In p hs -> n = hp_dst p -> flat_map pub_of ev = []) ->
    map ltri ls' = map ltri ls -> map htri hs' = map htri hs ->
    (forall l, In l ls' -> link_ok C (set_nth n o' os) P' G' l) ->
    (forall p, In p hs' -> hop_ok C (set_nth n o' os) P' G' p) ->
    net C (set_nth n o' os) ls' hs' mine P' G'.
  Proof.
    intros N (H & R & F & HP & HG) Lc Gc Pr Dp El Eh Ll Lh.
    assert (Len : n < length os) by (apply nth_error_Some; congruence).
    assert (E1 : map lkey ls' = map lkey ls).
    { apply (f_equal (map fst)) in El. rewrite !map_map in El. exact El. }
    assert (E2 : map hkey hs' = map hkey hs).
    { apply (f_equal (map fst)) in Eh. rewrite !map_map in Eh. exact Eh. }
    assert (E3 : map hp_dst hs' = map hp_dst hs).
    { apply (f_equal (map snd)) in Eh. rewrite !map_map in Eh. exact Eh. }
    assert (IH : forall p, In p hs' -> exists q, In q hs /\ htri q = htri p).
    { intros p I. apply (in_map htri) in I. rewrite Eh in I. apply in_map_iff in I as (q & E & I). eauto. }
    assert (IL : forall p, In p ls' -> exists q, In q ls /\ ltri q = ltri p).
    { intros p I. apply (in_map ltri) in I. rewrite El in I. apply in_map_iff in I as (q & E & I). eauto. }
    assert (OW : forall m, owned (set_nth n o' os) hs' m <-> owned os hs m).
    { intros m. unfold owned. rewrite set_nth_length. split; intros (X & Y); split; auto; intros p I.
      - apply (in_map htri) in I. rewrite <- Eh in I. apply in_map_iff in I as (q & E & I). injection E as _ _ E. rewrite <- E. auto.
      - destruct (IH _ I) as (q & Iq & E). injection E as _ _ E. rewrite <- E. auto. }
    assert (PD : forall p, In p hs' -> P' (hp_dst p) = P (hp_dst p)).
    { intros p I. destruct (IH _ I) as (q & Iq & E). injection E as _ _ E. rewrite HP. destruct (Nat.eqb_spec (hp_dst p) n) as [En|En]; [|apply app_nil_r].
      rewrite (Dp q Iq) by congruence. apply app_nil_r. }
    split; auto.
    - intros E. destruct os; [cbn in Len; lia|destruct n; discriminate E].
    - intros m a Hm. destruct (Nat.eq_dec m n) as [->|Nm].
      + rewrite nth_error_set_eq in Hm by auto. injection Hm as <-. rewrite HP, Nat.eqb_refl. eapply node_run; eauto. eapply n_node; eauto.
      + rewrite nth_error_set_ne in Hm by auto. rewrite HP. destruct (Nat.eqb_spec m n); [contradiction|]. rewrite app_nil_r. eapply n_node; eauto.
    - intros m L. rewrite set_nth_length in L. destruct (n_new _ _ _ _ _ _ _ N m L) as (X & Y). rewrite HP. destruct (Nat.eqb_spec m n); [lia|]. rewrite app_nil_r.
      split; auto. intros c. rewrite HG. destruct (Nat.eqb_spec m n); [lia|]. rewrite app_nil_r. auto.
    - intros m a c Hm L. rewrite HG. destruct (Nat.eqb_spec m n) as [->|Nm].
      + rewrite nth_error_set_eq in Hm by auto. injection Hm as <-. rewrite Gc by auto. rewrite app_nil_r. eapply n_cons; eauto. lia.
      + rewrite nth_error_set_ne in Hm by auto. rewrite app_nil_r. eapply n_cons; eauto.
    - intros m a O Hm. apply OW in O. destruct (Nat.eq_dec m n) as [->|Nm].
      + rewrite nth_error_set_eq in Hm by auto. injection Hm as <-. apply Pr; auto. eapply n_prod; eauto.
      + rewrite nth_error_set_ne in Hm by auto. eapply n_prod; eauto.
    - intros l I. destruct (IL _ I) as (q & Iq & E). injection E as _ _ E. rewrite <- E. apply OW. eapply n_ldst; eauto.
    - intros p I. destruct (IH _ I) as (q & Iq & E). injection E as E _ _. rewrite <- E. apply OW. eapply n_hsrc; eauto.
    - rewrite E3. apply N.
    - rewrite E1, E2. apply N.
    - intros m c. rewrite E1, E2. intros I. destruct (n_bound _ _ _ _ _ _ _ N _ _ I) as (a & A & L). destruct (Nat.eq_dec m n) as [->|Nm].
      + exists o'. split; [apply nth_error_set_eq; auto|]. assert (a = o) by congruence. subst a. lia.
      + exists a. rewrite nth_error_set_ne by auto. auto.
    - intros b I. destruct (n_mine _ _ _ _ _ _ _ N b I) as (L & D). split; auto. intros p s Ip. rewrite (PD _ Ip).
      destruct (IH _ Ip) as (q & Iq & E). injection E as _ _ E. rewrite <- E. auto.
    - intros p q s s' b Ip Iq. rewrite (PD _ Ip), (PD _ Iq). destruct (IH _ Ip) as (p0 & Ip0 & Ep). destruct (IH _ Iq) as (q0 & Iq0 & Eq).
      injection Ep as _ _ Ep. injection Eq as _ _ Eq. rewrite <- Ep, <- Eq. eapply n_apart; eauto.
  Qed.
End Move.

(** * Broadcasts are made or closed *)
Lemma net_grow C C' os ls hs mine P G : net C os ls hs mine P G -> grows C C' -> os <> [] ->
  (forall p s b, In p hs -> In (s, b) (P (hp_dst p)) -> closedb C' b -> closedb C b) ->
  net C' (all_closed C' os) ls (map (with_runs (length C')) hs) mine P G.
Proof.
  intros N Gr Ne Own.
  assert (NT : forall n o, nth_error (all_closed C' os) n = Some o -> exists a, nth_error os n = Some a /\ o = with_closed C' a).
  { intros n o H. unfold all_closed in H. rewrite nth_error_map in H. destruct (nth_error os n) as [a|]; [|discriminate]. injection H as <-. eauto. }
  assert (IH : forall p, In p (map (with_runs (length C')) hs) -> exists q, In q hs /\ p = with_runs (length C') q).
  { intros p I. apply in_map_iff in I as (q & <- & I). eauto. }
  assert (OW : forall m, owned (all_closed C' os) (map (with_runs (length C')) hs) m <-> owned os hs m).
  { intros m. unfold owned, all_closed. rewrite map_length. split; intros (X & Y); split; auto; intros p I.
    - apply (in_map (with_runs (length C'))) in I. apply Y in I. exact I.
    - destruct (IH _ I) as (q & Iq & ->). cbn. auto. }
  assert (HD : map hp_dst (map (with_runs (length C')) hs) = map hp_dst hs) by (rewrite map_map; reflexivity).
  assert (HK : map hkey (map (with_runs (length C')) hs) = map hkey hs) by (rewrite map_map; reflexivity).
  split.
  - intros E. apply map_eq_nil in E. contradiction.
  - intros n o H. destruct (NT _ _ H) as (a & A & ->). apply (node_grow C); auto. eapply n_node; eauto.
  - intros n L. unfold all_closed in L. rewrite map_length in L. apply (n_new _ _ _ _ _ _ _ N n L).
  - intros n o c H L. destruct (NT _ _ H) as (a & A & ->). cbn in L. eapply n_cons; eauto.
  - intros n o O H. destruct (NT _ _ H) as (a & A & ->). cbn. eapply n_prod; eauto. apply OW. exact O.
  - intros l I. eapply link_grow; eauto. eapply n_links; eauto.
  - intros p I. destruct (IH _ I) as (q & Iq & ->). pose proof (n_hops _ _ _ _ _ _ _ N _ Iq) as Q. eapply hop_grow; eauto.
    destruct (ho_dst _ _ _ _ _ Q) as (r & Hr & _). intros x. apply (nd_bound _ _ _ (n_node _ _ _ _ _ _ _ N _ _ Hr)).
  - intros l I. apply OW. eapply n_ldst; eauto.
  - intros p I. destruct (IH _ I) as (q & Iq & ->). cbn. apply OW. eapply n_hsrc; eauto.
  - rewrite HD. apply N.
  - rewrite HK. apply N.
  - rewrite HK. intros n c I. destruct (n_bound _ _ _ _ _ _ _ N _ _ I) as (a & A & L). exists (with_closed C' a). split; [apply nth_closed; auto|exact L].
  - intros b I. destruct (n_mine _ _ _ _ _ _ _ N b I) as (L & D). split; [destruct Gr; lia|]. intros p s Ip.
    destruct (IH _ Ip) as (q & Iq & ->). cbn. auto.
  - intros p q s s' b Ip Iq. destruct (IH _ Ip) as (p0 & Ip0 & ->). destruct (IH _ Iq) as (q0 & Iq0 & ->). cbn. eapply n_apart; eauto.
Qed.

(** * The network grows *)
Lemma nth_snoc {A} (l : list A) x n : nth_error (l ++ [x]) n = if Nat.eqb n (length l) then Some x else nth_error l n.
Proof.
  destruct (Nat.eqb_spec n (length l)) as [->|N]; [rewrite nth_error_app2, Nat.sub_diag by lia; reflexivity|].
  destruct (lt_dec n (length l)); [apply nth_error_app1; auto|]. rewrite nth_error_app2 by lia.
  destruct (n - length l) as [|[|m]] eqn:E; [lia| |]; symmetry; apply nth_error_None; lia.
Qed.
Lemma link_more C os o P G l : link_ok C os P G l -> link_ok C (os ++ [o]) P G l.
Proof. intros [(a & A & H) H2 H3]. split; auto. exists a. split; auto. rewrite nth_error_app1; auto. apply nth_error_Some. congruence. Qed.
Lemma hop_more C os o P G p : hop_ok C os P G p -> hop_ok C (os ++ [o]) P G p.
Proof.
  intros [(a & A & H) (r & Hr & H2) ]. split; auto.
  - exists a. split; auto. rewrite nth_error_app1; auto. apply nth_error_Some. congruence.
  - exists r. split; auto. rewrite nth_error_app1; auto. apply nth_error_Some. congruence.
Qed.

Lemma net_origin C os ls hs mine P G o : net C os ls hs mine P G -> node C [] o -> get (os_prods o) 0 = Some tt ->
  net C (os ++ [o]) ls hs mine P G.
Proof.
  intros N Nd Pr. destruct (n_new _ _ _ _ _ _ _ N (length os)) as (X & Y); auto.
  assert (HD : forall p, In p hs -> hp_dst p < length os).
  { intros p I. destruct (ho_dst _ _ _ _ _ (n_hops _ _ _ _ _ _ _ N _ I)) as (r & Hr & _). apply nth_error_Some. congruence. }
  assert (OW : forall m, owned os hs m -> owned (os ++ [o]) hs m).
  { intros m (L & D). split; auto. rewrite app_length. lia. }
  split; try apply N.
  - intros E. destruct os; discriminate E.
  - intros n a. rewrite nth_snoc. destruct (Nat.eqb_spec n (length os)) as [->|Nn].
    + intros [= <-]. rewrite X. exact Nd.
    + apply N.
  - intros n L. rewrite app_length in L. apply N. lia.
  - intros n a c. rewrite nth_snoc. destruct (Nat.eqb_spec n (length os)) as [->|Nn]; [auto|]. apply N.
  - intros n a (L & D). rewrite nth_snoc. destruct (Nat.eqb_spec n (length os)) as [->|Nn]; [congruence|]. intros H. eapply n_prod; eauto.
    split; auto. rewrite app_length in L. cbn in L. lia.
  - intros l I. apply link_more. eapply n_links; eauto.
  - intros l I. apply hop_more. eapply n_hops; eauto.
  - intros l I. apply OW. eapply n_ldst; eauto.
  - intros l I. apply OW. eapply n_hsrc; eauto.
  - intros n c I. destruct (n_bound _ _ _ _ _ _ _ N _ _ I) as (a & A & L). exists a. split; auto. rewrite nth_error_app1; auto. apply nth_error_Some. congruence.
Qed.

Lemma net_link C os ls hs mine P G l : net C os ls hs mine P G -> link_ok C os P G l -> owned os hs (lk_dst l) ->
  ~ In (lkey l) (map lkey ls ++ map hkey hs) -> (exists o, nth_error os (lk_src l) = Some o /\ lk_cons l < length (os_cons o)) ->
  net C os (ls ++ [l]) hs mine P G.
Proof.
  intros N K D F B. split; try apply N.
  - intros x I. apply in_app_or in I as [I|[<-|[]]]; auto. eapply n_links; eauto.
  - intros x I. apply in_app_or in I as [I|[<-|[]]]; auto. eapply n_ldst; eauto.
  - rewrite map_app, <- app_assoc. cbn. eapply Permutation_NoDup; [apply Permutation_middle|]. constructor; auto. apply N.
  - intros n c. rewrite map_app, <- app_assoc. cbn. intros I. apply in_app_or in I as [I|[E|I]].
    + apply (n_bound _ _ _ _ _ _ _ N). apply in_or_app; auto.
    + unfold lkey in E. injection E as <- <-. exact B.
    + apply (n_bound _ _ _ _ _ _ _ N). apply in_or_app; auto.
Qed.

Lemma net_hop C os ls hs mine P G p : net C os ls hs mine P G -> hop_ok C os P G p -> owned os hs (hp_src p) -> hp_src p <> hp_dst p ->
  P (hp_dst p) = [] -> owned os hs (hp_dst p) -> (forall l, In l ls -> lk_dst l <> hp_dst p) -> (forall q, In q hs -> hp_src q <> hp_dst p) ->
  ~ In (hkey p) (map lkey ls ++ map hkey hs) -> (exists o, nth_error os (hp_src p) = Some o /\ hp_cons p < length (os_cons o)) ->
  net C os ls (hs ++ [p]) mine P G.
Proof.
  intros N K S Ne E (Lr & D) NL NH F B.
  assert (OW : forall m, owned os hs m -> m <> hp_dst p -> owned os (hs ++ [p]) m).
  { intros m (L & D') Nm. split; auto. intros q I. apply in_app_or in I as [I|[<-|[]]]; auto. }
  split; try apply N.
  - intros n o (L & D'). apply N. split; auto. intros q I. apply D'. apply in_or_app; auto.
  - intros x I. apply in_app_or in I as [I|[<-|[]]]; auto. eapply n_hops; eauto.
  - intros l I. apply OW; auto. eapply n_ldst; eauto.
  - intros q I. apply in_app_or in I as [I|[<-|[]]]; apply OW; auto. eapply n_hsrc; eauto.
  - rewrite map_app. cbn. eapply Permutation_NoDup; [apply Permutation_cons_append|]. constructor; [|apply N].
    intros I. apply in_map_iff in I as (q & Eq & I). apply (D q I). exact Eq.
  - rewrite map_app, app_assoc. cbn. eapply Permutation_NoDup; [apply Permutation_cons_append|]. constructor; auto. apply N.
  - intros n c. rewrite map_app, app_assoc. cbn. intros I. apply in_app_or in I as [I|[Eq|[]]].
    + apply (n_bound _ _ _ _ _ _ _ N). exact I.
    + unfold hkey in Eq. injection Eq as <- <-. exact B.
  - intros b I. destruct (n_mine _ _ _ _ _ _ _ N b I) as (L & X). split; auto. intros q s Iq. apply in_app_or in Iq as [Iq|[<-|[]]]; auto. rewrite E. auto.
  - intros q q' s s' b Iq Iq'. apply in_app_or in Iq as [Iq|[<-|[]]]; [|rewrite E; intros []]. apply in_app_or in Iq' as [Iq'|[<-|[]]]; [|rewrite E; intros _ []].
    eapply n_apart; eauto.
Qed.
