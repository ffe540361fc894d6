From Coq Require Import ZArith NArith List Bool Arith Lia.
From Verif.Model Require Import JsAudio.
From Verif.Spec Require Import JsAudioSpec.
Import ListNotations.
Open Scope nat_scope.

Definition livep (nodes : list node) (i : nat) (n : node) : Prop := nth_error nodes i = Some n /\ n_ended n = false.

Record core (nodes : list node) (count : nat) (ref : option Z) (l : alog) : Prop := {
  c_play : forall i no ts w c, In (EPlay i no ts w c) l -> exists b, nth_error nodes i = Some (Node no ts w b);
  c_node : forall i n, nth_error nodes i = Some n -> exists c, In (EPlay i (n_sample n) (n_ts n) (n_when n) c) l;
  c_end : forall i n, nth_error nodes i = Some n -> (n_ended n = true <-> ended l i);
  c_end2 : forall i c, In (EEnded i c) l -> i < length nodes;
  c_cnt : forall no ts cur m r, In (ESample no ts cur m r) l -> no < count;
  c_src : forall i n, nth_error nodes i = Some n -> exists cur m r, In (ESample (n_sample n) (n_ts n) cur m r) l /\ (no_zero l -> (n_when n <= cur + m)%Z);
  c_one : forall i j n n', livep nodes i n -> livep nodes j n' -> n_sample n = n_sample n' -> i = j;
  c_done : no_zero l -> forall j no ts w c e, In (EPlay j no ts w c) l -> In (EEnded j e) l -> (w <= e)%Z -> forall i n, livep nodes i n -> n_sample n <> no;
  c_mono : no_zero l -> forall r, ref = Some r -> forall n, In n nodes -> (n_ts n - r <= n_when n)%Z;
  c_ref : forall r, ref = Some r -> exists no ts cur m q, In (ESample no ts cur m q) l /\ r = (ts - cur - m)%Z;
  c_seen : forall r, ref = Some r -> exists i no ts c, In (EPlay i no ts (ts - r)%Z c) l;
  c_none : ref = None -> nodes = [] }.

Definition on_of (l : alog) : bool := fold_left (fun b e => match e with EOn => true | EOff => false | _ => b end) l false.

Definition ok (pre : alog) (e : aev) : Prop :=
  match e with
  | EPlay i no ts w cur => (cur <= w)%Z /\
      (no_zero pre -> forall i' no' ts' w' c', In (EPlay i' no' ts' w' c') pre -> (w - ts <= w' - ts')%Z) /\
      (exists c0 m r, In (ESample no ts c0 m r) pre /\ (no_zero pre -> (w <= c0 + m)%Z)) /\
      (no_zero pre -> forall j ts' w' c' e', In (EPlay j no ts' w' c') pre -> In (EEnded j e') pre -> (e' < w')%Z)
  | ELate no ts cur => exists no' ts' cur' m' r', In (ESample no' ts' cur' m' r') pre /\ no' <> no /\ (ts - cur < ts' - cur' - m')%Z
  | ESample _ _ _ _ _ => on_of pre = true
  | EOff => in_order pre -> forall i, started pre i -> ~ ended pre i -> In (EHush i) pre
  | _ => True
  end.
Definition good (l : alog) : Prop := forall a e b, l = a ++ e :: b -> ok a e.

Lemma app_split : forall {A} (l1 l2 a : list A) e b, l1 ++ l2 = a ++ e :: b ->
  (exists c, l1 = a ++ e :: c) \/ (exists c, a = l1 ++ c /\ l2 = c ++ e :: b).
Proof.
  intros A l1. induction l1 as [|x l1 IH]; intros l2 a e b H; cbn in H.
  - right. exists a. auto.
  - destruct a as [|y a]; cbn in H.
    + injection H as -> H. left. exists l1. reflexivity.
    + injection H as <- H. destruct (IH _ _ _ _ H) as [(c & ->)|(c & -> & ->)]; [left; exists c|right; exists c]; auto.
Qed.
Lemma good_1 : forall l e, good l -> ok l e -> good (l ++ [e]).
Proof.
  intros l e G O a x b E. destruct (app_split _ _ _ _ _ E) as [(c & ->)|(c & -> & Q)]; [exact (G _ _ _ eq_refl)|].
  destruct c as [|y c]; cbn in Q; [|destruct c; discriminate]. injection Q as <- <-. now rewrite app_nil_r.
Qed.

Lemma nz_app : forall l l', no_zero (l ++ l') -> no_zero l.
Proof. intros l l' H i no ts w c D. eapply H. apply in_or_app. left. exact D. Qed.
Lemma in1 : forall {A} (l : list A) e x, In x (l ++ [e]) <-> In x l \/ x = e.
Proof. intros. rewrite in_app_iff. cbn. intuition. Qed.
Lemma inl : forall {A} (l : list A) e x, In x l -> In x (l ++ [e]).
Proof. intros. apply in1. auto. Qed.

Definition quiet (e : aev) : Prop := match e with EOn | EOff | EContext _ | EHush _ | ELate _ _ _ => True | _ => False end.

Lemma ended_app : forall l e i, (forall c, e <> EEnded i c) -> (ended (l ++ [e]) i <-> ended l i).
Proof. intros l e i N. split; intros (c & H); exists c; [apply in1 in H; destruct H as [H|H]; [auto|now subst; destruct (N c)]|now apply inl]. Qed.

Lemma core_quiet : forall nodes count ref l e, core nodes count ref l -> quiet e -> core nodes count ref (l ++ [e]).
Proof.
  intros nodes count ref l e I Q.
  assert (NP : forall i no ts w c, e <> EPlay i no ts w c) by (intros; intros ->; exact Q).
  assert (NE : forall i c, e <> EEnded i c) by (intros; intros ->; exact Q).
  assert (NS : forall no ts c m r, e <> ESample no ts c m r) by (intros; intros ->; exact Q).
  constructor.
  - intros i no ts w c H. apply in1 in H. destruct H as [H|H]; [eapply c_play; eauto|now destruct (NP i no ts w c)].
  - intros i n H. destruct (c_node _ _ _ _ I _ _ H) as (c & D). exists c. now apply inl.
  - intros i n H. rewrite ended_app by (intro c; apply NE). eapply c_end; eauto.
  - intros i c H. apply in1 in H. destruct H as [H|H]; [eapply c_end2; eauto|now destruct (NE i c)].
  - intros no ts cur m r H. apply in1 in H. destruct H as [H|H]; [eapply c_cnt; eauto|now destruct (NS no ts cur m r)].
  - intros i n H. destruct (c_src _ _ _ _ I _ _ H) as (cur & m & r & D & B). exists cur, m, r. split; [now apply inl|]. intro Z0. apply B. eapply nz_app; eauto.
  - eapply c_one; eauto.
  - intros Z0 j no ts w c x H1 H2. apply in1 in H1, H2. destruct H1 as [H1|H1]; [|now destruct (NP j no ts w c)].
    destruct H2 as [H2|H2]; [|now destruct (NE j x)]. eapply c_done; eauto. eapply nz_app; eauto.
  - intro Z0. eapply c_mono; eauto. eapply nz_app; eauto.
  - intros r H. destruct (c_ref _ _ _ _ I _ H) as (no & ts & cur & m & q & D & E). exists no, ts, cur, m, q. split; [now apply inl|exact E].
  - intros r H. destruct (c_seen _ _ _ _ I _ H) as (i & no & ts & c & D). exists i, no, ts, c. now apply inl.
  - eapply c_none; eauto.
Qed.

Lemma core_sample : forall nodes count ref l ts cur m r, core nodes count ref l -> core nodes (S count) ref (l ++ [ESample count ts cur m r]).
Proof.
  intros nodes count ref l ts0 cur0 m0 r0 I. constructor.
  - intros i no ts w c H. apply in1 in H. destruct H as [H|H]; [eapply c_play; eauto|discriminate].
  - intros i n H. destruct (c_node _ _ _ _ I _ _ H) as (c & D). exists c. now apply inl.
  - intros i n H. rewrite ended_app by discriminate. eapply c_end; eauto.
  - intros i c H. apply in1 in H. destruct H as [H|H]; [eapply c_end2; eauto|discriminate].
  - intros no ts cur m r H. apply in1 in H. destruct H as [H|H]; [pose proof (c_cnt _ _ _ _ I _ _ _ _ _ H)|injection H; intros; subst]; lia.
  - intros i n H. destruct (c_src _ _ _ _ I _ _ H) as (cur & m & r & D & B). exists cur, m, r. split; [now apply inl|]. intro Z0. apply B. eapply nz_app; eauto.
  - eapply c_one; eauto.
  - intros Z0 j no ts w c x H1 H2. apply in1 in H1, H2. destruct H1 as [H1|H1]; [|discriminate].
    destruct H2 as [H2|H2]; [|discriminate]. eapply c_done; eauto. eapply nz_app; eauto.
  - intro Z0. eapply c_mono; eauto. eapply nz_app; eauto.
  - intros r H. destruct (c_ref _ _ _ _ I _ H) as (no & ts & cur & m & q & D & E). exists no, ts, cur, m, q. split; [now apply inl|exact E].
  - intros r H. destruct (c_seen _ _ _ _ I _ H) as (i & no & ts & c & D). exists i, no, ts, c. now apply inl.
  - eapply c_none; eauto.
Qed.

Lemma nth_snoc : forall {A} (l : list A) x i y, nth_error (l ++ [x]) i = Some y -> nth_error l i = Some y \/ (i = length l /\ y = x).
Proof.
  intros A l x i y H. destruct (Nat.lt_ge_cases i (length l)) as [L|L].
  - rewrite nth_error_app1 in H by exact L. auto.
  - rewrite nth_error_app2 in H by exact L. destruct (i - length l) as [|k] eqn:E; cbn in H; [injection H as <-; right; split; [lia|auto]|destruct k; discriminate].
Qed.
Lemma nth_old : forall {A} (l : list A) x i y, nth_error l i = Some y -> nth_error (l ++ [x]) i = Some y.
Proof. intros A l x i y H. rewrite nth_error_app1; [exact H|]. apply nth_error_Some. congruence. Qed.

Lemma core_play1 : forall nodes count ref l no ts w r cur, core nodes count ref l ->
  (exists c0 m q, In (ESample no ts c0 m q) l /\ (no_zero l -> (w <= c0 + m)%Z)) ->
  (forall i n, livep nodes i n -> n_sample n <> no) ->
  (no_zero l -> forall j ts' w' c' e, In (EPlay j no ts' w' c') l -> In (EEnded j e) l -> (e < w')%Z) ->
  w = (ts - r)%Z -> (no_zero l -> forall n, In n nodes -> (n_ts n - r <= n_when n)%Z) ->
  (exists no ts cur m q, In (ESample no ts cur m q) l /\ r = (ts - cur - m)%Z) ->
  core (nodes ++ [Node no ts w false]) count (Some r) (l ++ [EPlay (length nodes) no ts w cur]).
Proof.
  intros nodes count ref l no ts w r cur I Hs Hl Hd -> Hm Hr. constructor.
  - intros i no' ts' w' c H. apply in1 in H. destruct H as [H|H].
    + destruct (c_play _ _ _ _ I _ _ _ _ _ H) as (b & E). exists b. now apply nth_old.
    + injection H; intros; subst. exists false. rewrite nth_error_app2, Nat.sub_diag by lia. reflexivity.
  - intros i n H. destruct (nth_snoc _ _ _ _ H) as [E|[-> ->]].
    + destruct (c_node _ _ _ _ I _ _ E) as (c & D). exists c. now apply inl.
    + exists cur. apply in1. right. reflexivity.
  - intros i n H. rewrite ended_app by discriminate. destruct (nth_snoc _ _ _ _ H) as [E|[-> ->]]; [eapply c_end; eauto|].
    cbn. split; [discriminate|]. intros (c & D). pose proof (c_end2 _ _ _ _ I _ _ D). lia.
  - intros i c H. apply in1 in H. destruct H as [H|H]; [|discriminate]. pose proof (c_end2 _ _ _ _ I _ _ H). rewrite app_length. cbn. lia.
  - intros no' ts' cur' m q H. apply in1 in H. destruct H as [H|H]; [eapply c_cnt; eauto|discriminate].
  - intros i n H. destruct (nth_snoc _ _ _ _ H) as [E|[-> ->]].
    + destruct (c_src _ _ _ _ I _ _ E) as (cur' & m & q & D & B). exists cur', m, q. split; [now apply inl|]. intro Z0. apply B. eapply nz_app; eauto.
    + destruct Hs as (c0 & m & q & D & B). exists c0, m, q. split; [now apply inl|]. intro Z0. apply B. eapply nz_app; eauto.
  - intros i j n n' [H1 A1] [H2 A2] E. destruct (nth_snoc _ _ _ _ H1) as [E1|[-> ->]]; destruct (nth_snoc _ _ _ _ H2) as [E2|[-> ->]]; auto.
    + eapply c_one; eauto; split; eauto.
    + exfalso. eapply Hl; [split; eauto|exact E].
    + exfalso. eapply Hl; [split; eauto|symmetry; exact E].
  - intros Z0 j no' ts' w' c e H1 H2 L i n [H A] E. apply nz_app in Z0 as Z1. apply in1 in H1, H2. destruct H2 as [H2|H2]; [|discriminate].
    destruct H1 as [H1|H1].
    2:{ injection H1; intros; subst. pose proof (c_end2 _ _ _ _ I _ _ H2). lia. }
    destruct (nth_snoc _ _ _ _ H) as [E1|[-> ->]].
    + eapply c_done; eauto. split; eauto.
    + cbn in E. subst no'. pose proof (Hd Z1 _ _ _ _ _ H1 H2). lia.
  - intros Z0 r' E n H. injection E as <-. apply in1 in H. destruct H as [H|H]; [apply Hm; [eapply nz_app; eauto|exact H]|subst; cbn; lia].
  - intros r' E. injection E as <-. destruct Hr as (a & b & c & d & q & D & X). exists a, b, c, d, q. split; [now apply inl|exact X].
  - intros r' E. injection E as <-. exists (length nodes), no, ts, cur. apply in1. auto.
  - discriminate.
Qed.

Lemma off_same : forall l i n, nth_error l i = Some n -> nth_error (node_off l i) i = Some (Node (n_sample n) (n_ts n) (n_when n) true).
Proof. induction l as [|x l IH]; intros [|i] n H; cbn in *; try discriminate; [now injection H as <-|auto]. Qed.
Lemma off_other : forall l i j, i <> j -> nth_error (node_off l i) j = nth_error l j.
Proof. induction l as [|x l IH]; intros [|i] [|j] N; cbn; auto; congruence. Qed.
Lemma off_length : forall l i, length (node_off l i) = length l.
Proof. induction l as [|x l IH]; intros [|i]; cbn; auto. Qed.
Lemma off_inv : forall l i j n, nth_error (node_off l i) j = Some n -> exists n', nth_error l j = Some n' /\ n_sample n = n_sample n' /\ n_ts n = n_ts n' /\
  n_when n = n_when n' /\ (i <> j -> n = n') /\ (i = j -> n_ended n = true).
Proof.
  intros l i j n H. destruct (Nat.eq_dec i j) as [<-|N].
  - destruct (nth_error l i) as [m|] eqn:E.
    + rewrite (off_same _ _ _ E) in H. injection H as <-. exists m. cbn. intuition congruence.
    + exfalso. apply nth_error_None in E. rewrite <- (off_length l i) in E. apply nth_error_None in E. congruence.
  - rewrite off_other in H by exact N. exists n. intuition congruence.
Qed.

Lemma core_end1 : forall nodes count ref l i n cur, core nodes count ref l -> livep nodes i n -> core (node_off nodes i) count ref (l ++ [EEnded i cur]).
Proof.
  intros nodes count ref l i n cur I [L A]. constructor.
  - intros j no ts w c H. apply in1 in H. destruct H as [H|H]; [|discriminate]. destruct (c_play _ _ _ _ I _ _ _ _ _ H) as (b & E).
    destruct (Nat.eq_dec i j) as [<-|N]; [exists true; now rewrite (off_same _ _ _ E)|exists b; now rewrite off_other].
  - intros j m H. destruct (off_inv _ _ _ _ H) as (m' & E & -> & -> & -> & _). destruct (c_node _ _ _ _ I _ _ E) as (c & D). exists c. now apply inl.
  - intros j m H. destruct (off_inv _ _ _ _ H) as (m' & E & _ & _ & _ & D1 & D2). destruct (Nat.eq_dec i j) as [<-|N].
    + split; [intros _; exists cur; apply in1; auto|auto].
    + rewrite (D1 N), ended_app by congruence. eapply c_end; eauto.
  - intros j c H. rewrite off_length. apply in1 in H. destruct H as [H|H]; [eapply c_end2; eauto|]. injection H as -> ->. apply nth_error_Some. congruence.
  - intros no ts c m q H. apply in1 in H. destruct H as [H|H]; [eapply c_cnt; eauto|discriminate].
  - intros j m H. destruct (off_inv _ _ _ _ H) as (m' & E & -> & -> & -> & _). destruct (c_src _ _ _ _ I _ _ E) as (c & x & q & D & B).
    exists c, x, q. split; [now apply inl|]. intro Z0. apply B. eapply nz_app; eauto.
  - intros j k m m' [H1 A1] [H2 A2] E. destruct (off_inv _ _ _ _ H1) as (x & X & _ & _ & _ & D1 & D2). destruct (off_inv _ _ _ _ H2) as (y & Y & _ & _ & _ & F1 & F2).
    assert (i <> j) by (intro Q; specialize (D2 Q); congruence). assert (i <> k) by (intro Q; specialize (F2 Q); congruence).
    rewrite (D1 H) in *. rewrite (F1 H0) in *. eapply c_one; eauto; split; eauto.
  - intros Z0 j no ts w c e H1 H2 W k m [H A1] E. apply nz_app in Z0. apply in1 in H1, H2. destruct H1 as [H1|H1]; [|discriminate].
    destruct (off_inv _ _ _ _ H) as (y & Y & _ & _ & _ & F1 & F2). assert (N : i <> k) by (intro Q; specialize (F2 Q); congruence). rewrite (F1 N) in *.
    destruct H2 as [H2|H2].
    + eapply c_done; eauto. split; eauto.
    + injection H2 as -> ->. destruct (c_play _ _ _ _ I _ _ _ _ _ H1) as (b & X). apply N.
      apply (c_one _ _ _ _ I i k n y (conj L A) (conj Y A1)). rewrite X in L. injection L as <-. cbn. auto.
  - intros Z0 r E m H. apply nz_app in Z0. apply In_nth_error in H. destruct H as (j & H). destruct (off_inv _ _ _ _ H) as (m' & X & _ & -> & -> & _).
    eapply c_mono; eauto. eapply nth_error_In; eauto.
  - intros r H. destruct (c_ref _ _ _ _ I _ H) as (no & ts & c & m & q & D & E). exists no, ts, c, m, q. split; [now apply inl|exact E].
  - intros r H. destruct (c_seen _ _ _ _ I _ H) as (j & no & ts & c & D). exists j, no, ts, c. now apply inl.
  - intro E. rewrite (c_none _ _ _ _ I E). now destruct i.
Qed.

(** ** The whole state *)
(** The nodes that have not ended, in order *)
Definition live_ids (nodes : list node) : list nat := filter (fun i => match nth_error nodes i with Some n => negb (n_ended n) | None => false end) (seq 0 (length nodes)).

Record inv (s : audio) (l : alog) : Prop := {
  i_core : core (a_nodes s) (a_count s) (a_ref s) l;
  i_on : a_on s = on_of l;
  i_good : good l;
  i_act : in_order l -> a_active s = live_ids (a_nodes s) }.

Lemma on_app : forall l e, on_of (l ++ [e]) = match e with EOn => true | EOff => false | _ => on_of l end.
Proof. intros. unfold on_of. rewrite fold_left_app. now destruct e. Qed.

Lemma order_app : forall l l', in_order (l ++ l') -> in_order l.
Proof. intros l l' H a i c b E. eapply H. rewrite E, <- app_assoc. reflexivity. Qed.

Lemma filter_ext_in' : forall {A} (f g : A -> bool) l, (forall x, In x l -> f x = g x) -> filter f l = filter g l.
Proof. intros. now apply filter_ext_in. Qed.

Lemma live_snoc : forall nodes n, n_ended n = false -> live_ids (nodes ++ [n]) = live_ids nodes ++ [length nodes].
Proof.
  intros nodes n A. unfold live_ids. rewrite app_length. cbn [length]. rewrite Nat.add_1_r, seq_S, filter_app. cbn [plus]. f_equal.
  - apply filter_ext_in. intros i D. apply in_seq in D. rewrite nth_error_app1 by lia. reflexivity.
  - cbn. rewrite nth_error_app2, Nat.sub_diag by lia. cbn. now rewrite A.
Qed.

Lemma live_off : forall nodes i n, livep nodes i n -> (forall j m, j < i -> nth_error nodes j = Some m -> n_ended m = true) ->
  live_ids (node_off nodes i) = tl (live_ids nodes).
Proof.
  intros nodes i n [L A] B. unfold live_ids. rewrite off_length. assert (Li : i < length nodes) by (apply nth_error_Some; congruence).
  replace (length nodes) with (i + S (length nodes - S i)) by lia. rewrite seq_app, !filter_app. cbn [plus seq].
  assert (P : forall f : nat -> bool, (forall j, j < i -> f j = false) -> filter f (seq 0 i) = []).
  { intros f F. assert (Q : filter f (seq 0 i) = filter (fun _ => false) (seq 0 i)) by (apply filter_ext_in; intros j D; apply in_seq in D; apply F; lia).
    rewrite Q. clear. induction (seq 0 i); auto. }
  rewrite !P.
  - cbn [app filter]. rewrite (off_same _ _ _ L), L, A. cbn [negb n_ended tl]. apply filter_ext_in. intros j D. apply in_seq in D. rewrite off_other by lia. reflexivity.
  - intros j D. destruct (nth_error nodes j) as [m|] eqn:E; [|reflexivity]. now rewrite (B _ _ D E).
  - intros j D. rewrite off_other by lia. destruct (nth_error nodes j) as [m|] eqn:E; [|reflexivity]. now rewrite (B _ _ D E).
Qed.

Definition set_on (s : audio) b := Audio b (a_rate s) (a_ctx s) (a_ref s) (a_nodes s) (a_active s) (a_count s).

Lemma inv_quiet : forall s s' l e, inv s l -> quiet e -> ok l e -> a_nodes s' = a_nodes s -> a_count s' = a_count s -> a_ref s' = a_ref s -> a_active s' = a_active s ->
  a_on s' = on_of (l ++ [e]) -> inv s' (l ++ [e]).
Proof.
  intros s s' l e [C O G A] Q K E1 E2 E3 E4 E5. constructor.
  - rewrite E1, E2, E3. now apply core_quiet.
  - exact E5.
  - now apply good_1.
  - intro B. rewrite E1, E4. apply A. eapply order_app; eauto.
Qed.

Lemma inv_hush : forall ids s l, inv s l -> inv s (l ++ map EHush ids).
Proof.
  induction ids as [|i ids IH]; intros s l I; cbn [map]; [now rewrite app_nil_r|].
  change (EHush i :: map EHush ids) with ([EHush i] ++ map EHush ids). rewrite app_assoc. apply IH.
  eapply inv_quiet; eauto; try exact Logic.I. rewrite on_app. apply (i_on _ _ I).
Qed.

Lemma inv_play : forall s l no ts w r cur s' evs, inv s l -> (cur <= w)%Z ->
  (exists c0 m q, In (ESample no ts c0 m q) l /\ (no_zero l -> (w <= c0 + m)%Z)) ->
  (forall i n, livep (a_nodes s) i n -> n_sample n <> no) ->
  (no_zero l -> forall j ts' w' c' e, In (EPlay j no ts' w' c') l -> In (EEnded j e) l -> (e < w')%Z) ->
  w = (ts - r)%Z -> (no_zero l -> forall n, In n (a_nodes s) -> (n_ts n - r <= n_when n)%Z) ->
  (exists no ts cur m q, In (ESample no ts cur m q) l /\ r = (ts - cur - m)%Z) ->
  schedule (Audio (a_on s) (a_rate s) (a_ctx s) (Some r) (a_nodes s) (a_active s) (a_count s)) no ts w cur = (s', evs) -> inv s' (l ++ evs).
Proof.
  intros s l no ts w r cur s' evs [C O G A] H0 Hs Hl Hd Hw Hm Hr E. unfold schedule in E. injection E as <- <-.
  cbn [a_nodes]. constructor; cbn [a_nodes a_count a_ref a_on a_active].
  - eapply core_play1; eauto.
  - rewrite on_app. exact O.
  - apply good_1; [exact G|]. cbn [ok]. split; [exact H0|]. split; [|split; [exact Hs|exact Hd]].
    intros Z0 i' no' ts' w' c' D. destruct (c_play _ _ _ _ C _ _ _ _ _ D) as (b & X). specialize (Hm Z0 _ (nth_error_In _ _ X)). cbn in Hm. lia.
  - intro B. rewrite live_snoc by reflexivity. rewrite A; [reflexivity|]. eapply order_app; eauto.
Qed.

Lemma truthy_spec : forall o r, truthy o = Some r -> o = Some r /\ r <> 0%Z.
Proof. intros [z|] r H; cbn in H; [|discriminate]. destruct (Z.eqb_spec z 0); [discriminate|]. injection H as <-. auto. Qed.
Lemma truthy_nz : forall s l r, inv s l -> no_zero l -> a_ref s = Some r -> truthy (a_ref s) = Some r.
Proof.
  intros s l r I Z0 E. rewrite E. cbn. destruct (Z.eqb_spec r 0) as [->|]; [|reflexivity].
  destruct (c_seen _ _ _ _ (i_core _ _ I) _ E) as (i & no & ts & c & D). exfalso. apply (Z0 _ _ _ _ _ D). lia.
Qed.

(** The reference after a sample that resets it or finds none, or that keeps it *)
Lemma ref_grows : forall s l ts cur m, inv s l -> (0 <= m)%Z -> no_zero l ->
  (truthy (a_ref s) = None \/ exists r, truthy (a_ref s) = Some r /\ (r <= ts - cur - m)%Z) ->
  forall n, In n (a_nodes s) -> (n_ts n - (ts - cur - m) <= n_when n)%Z.
Proof.
  intros s l ts cur m I M Z0 D n H. destruct (a_ref s) as [r|] eqn:E.
  - pose proof (truthy_nz _ _ _ I Z0 E) as T. rewrite E in T. rewrite T in D. destruct D as [D|(r' & D & L)]; [discriminate|]. injection D as <-.
    pose proof (c_mono _ _ _ _ (i_core _ _ I) Z0 _ E _ H). lia.
  - rewrite (c_none _ _ _ _ (i_core _ _ I) E) in H. destruct H.
Qed.

Lemma inv_emit : forall s l no ts cur m q s' evs, inv s (l ++ [ESample no ts cur m q]) -> (0 <= m)%Z ->
  (forall i n, nth_error (a_nodes s) i = Some n -> n_sample n < no) -> (forall no' ts' c' m' q', In (ESample no' ts' c' m' q') l -> no' < no) ->
  (forall r, a_ref s = Some r -> exists no ts cur m q, In (ESample no ts cur m q) l /\ r = (ts - cur - m)%Z) ->
  forall lx, (lx = [] \/ exists c, lx = [EContext c]) -> inv s ((l ++ [ESample no ts cur m q]) ++ lx) ->
  emit s no ts cur m = (s', evs) -> inv s' (((l ++ [ESample no ts cur m q]) ++ lx) ++ evs).
Proof.
  intros s l no ts cur m q s' evs _ M Old Nos Ref lx Hlx I E. set (l' := (l ++ [ESample no ts cur m q]) ++ lx) in *.
  assert (Here : In (ESample no ts cur m q) l') by (apply in_or_app; left; apply in1; auto).
  assert (Hl : forall i n, livep (a_nodes s) i n -> n_sample n <> no) by (intros i n [H _]; specialize (Old _ _ H); lia).
  assert (Hd : no_zero l' -> forall j ts' w' c' e, In (EPlay j no ts' w' c') l' -> In (EEnded j e) l' -> (e < w')%Z).
  { intros _ j ts' w' c' e H _. destruct (c_play _ _ _ _ (i_core _ _ I) _ _ _ _ _ H) as (b & X). specialize (Old _ _ X). cbn in Old. lia. }
  assert (Hr : exists no0 ts0 cur0 m0 q0, In (ESample no0 ts0 cur0 m0 q0) l' /\ (ts - cur - m)%Z = (ts0 - cur0 - m0)%Z) by (exists no, ts, cur, m, q; auto).
  unfold emit in E. destruct (truthy (a_ref s)) as [r|] eqn:T.
  - destruct (truthy_spec _ _ T) as [Er _].
    assert (Same : Audio (a_on s) (a_rate s) (a_ctx s) (Some r) (a_nodes s) (a_active s) (a_count s) = s) by (rewrite <- Er; now destruct s).
    destruct (Z.ltb_spec (ts - r - cur) 0) as [L|L].
    + injection E as <- <-. rewrite Same. eapply inv_quiet; eauto; try exact Logic.I.
      * cbn [ok]. destruct (Ref _ Er) as (no0 & ts0 & cur0 & m0 & q0 & D & X). exists no0, ts0, cur0, m0, q0. split; [|split].
        -- apply in_or_app. left. now apply inl.
        -- specialize (Nos _ _ _ _ _ D). lia.
        -- lia.
      * rewrite on_app. apply (i_on _ _ I).
    + destruct (Z.gtb_spec (ts - r - cur) m) as [W|W].
      * destruct (schedule _ no ts (cur + m) cur) as [s2 ev] eqn:S2 in E. injection E as <- <-. rewrite app_assoc. pose proof (inv_hush (a_active s) _ _ I) as I2.
        assert (P : forall x, In x l' -> In x (l' ++ map EHush (a_active s))) by (intros x D; apply in_or_app; auto).
        eapply (inv_play s _ no ts (cur + m)%Z (ts - cur - m)%Z cur); eauto; try lia.
        -- exists cur, m, q. split; [apply P; exact Here|lia].
        -- intros Z0 j ts' w' c' e H1 H2. apply in_app_or in H1, H2.
           destruct H1 as [H1|H1]; [|apply in_map_iff in H1; destruct H1 as (? & X & _); discriminate].
           destruct H2 as [H2|H2]; [|apply in_map_iff in H2; destruct H2 as (? & X & _); discriminate].
           eapply Hd; eauto. eapply nz_app; eauto.
        -- intros Z0. eapply ref_grows; eauto. right. exists r. split; [exact T|lia].
        -- destruct Hr as (a & b & c & d & e & D & X). exists a, b, c, d, e. auto.
      * eapply (inv_play s l' no ts (ts - r)%Z r cur); eauto; try lia.
        -- exists cur, m, q. split; [exact Here|lia].
        -- intros Z0. eapply c_mono; eauto. apply I.
        -- destruct (Ref _ Er) as (a & b & c & d & e & D & X). exists a, b, c, d, e. split; [|exact X]. apply in_or_app. left. now apply inl.
  - replace (ts - (ts - cur - m) - cur <? 0)%Z with false in E by (symmetry; apply Z.ltb_ge; lia).
    replace (ts - (ts - cur - m) - cur >? m)%Z with false in E by (symmetry; rewrite Z.gtb_ltb; apply Z.ltb_ge; lia).
    eapply (inv_play s l' no ts (ts - (ts - cur - m))%Z (ts - cur - m)%Z cur); eauto; try lia.
    + exists cur, m, q. split; [exact Here|lia].
    + intros Z0. eapply ref_grows; eauto.
Qed.

Lemma in_live : forall nodes i n, livep nodes i n -> In i (live_ids nodes).
Proof.
  intros nodes i n [L A]. unfold live_ids. apply filter_In. split.
  - apply in_seq. split; [lia|]. cbn. apply nth_error_Some. congruence.
  - now rewrite L, A.
Qed.

Lemma inv_step : forall s l o s' evs, inv s l -> a_step s o = (s', evs) -> inv s' (l ++ evs).
Proof.
  intros s l o s' evs I E. assert (NOP : inv s (l ++ [])) by now rewrite app_nil_r.
  destruct o as [b|ts cur m q|i cur]; cbn [a_step] in E.
  - destruct (Bool.eqb b (a_on s)); [injection E as <- <-; exact NOP|]. destruct b.
    + assert (I1 : forall r c, inv (Audio true r c (a_ref s) (a_nodes s) (a_active s) (a_count s)) (l ++ [EOn])).
      { intros r c. eapply inv_quiet; eauto; try exact Logic.I. now rewrite on_app. }
      destruct (a_rate s) as [r|]; injection E as <- <-; [|apply I1].
      change [EOn; EContext (a_ctx s)] with ([EOn] ++ [EContext (a_ctx s)]). rewrite app_assoc.
      eapply inv_quiet; [apply (I1 (Some r) (S (a_ctx s)))|..]; try reflexivity; try exact Logic.I. now rewrite !on_app.
    + injection E as <- <-. rewrite app_assoc. pose proof (inv_hush (a_active s) _ _ I) as I2. eapply inv_quiet; eauto; try exact Logic.I; [|now rewrite on_app].
      cbn [ok]. intros O i (no & ts & w & c & D) NE. rewrite (i_act _ _ I2 O).
      destruct (c_play _ _ _ _ (i_core _ _ I2) _ _ _ _ _ D) as (b & X). apply in_or_app. right. apply in_map. eapply in_live. split; [exact X|].
      destruct b; [|reflexivity]. exfalso. apply NE. eapply (c_end _ _ _ _ (i_core _ _ I2)); eauto.
  - destruct (a_on s) eqn:On; [|injection E as <- <-; exact NOP].
    set (m' := Z.of_N m) in *. assert (M : (0 <= m')%Z) by lia.
    set (nw := negb (rate_eqb (a_rate s) q)) in *.
    set (s1 := Audio true (Some q) (if nw then S (a_ctx s) else a_ctx s) (a_ref s) (a_nodes s) (a_active s) (S (a_count s))) in *.
    destruct (emit s1 (a_count s) ts cur m') as [s2 ev] eqn:Em. injection E as <- <-.
    assert (I1 : inv s1 (l ++ [ESample (a_count s) ts cur m' q])).
    { destruct I as [C O G A]. constructor; cbn [s1 a_nodes a_count a_ref a_on a_active].
      - now apply core_sample.
      - rewrite on_app. congruence.
      - apply good_1; [exact G|]. cbn [ok]. congruence.
      - intro B. apply A. eapply order_app; eauto. }
    set (lx := if nw then [EContext (a_ctx s)] else []) in *.
    assert (Hlx : lx = [] \/ exists c, lx = [EContext c]) by (subst lx; destruct nw; eauto).
    assert (I2 : inv s1 ((l ++ [ESample (a_count s) ts cur m' q]) ++ lx)).
    { destruct Hlx as [->|(c & ->)]; [now rewrite app_nil_r|]. eapply inv_quiet; eauto; try exact Logic.I. rewrite on_app. apply (i_on _ _ I1). }
    change (ESample (a_count s) ts cur m' q :: lx ++ ev) with ([ESample (a_count s) ts cur m' q] ++ lx ++ ev). rewrite !app_assoc.
    eapply inv_emit; eauto.
    + intros i n H. destruct (c_src _ _ _ _ (i_core _ _ I) _ _ H) as (c & x & y & D & _). eapply c_cnt; eauto. apply I.
    + intros. eapply c_cnt; eauto. apply I.
    + intros. eapply c_ref; eauto. apply I.
  - destruct (nth_error (a_nodes s) i) as [n|] eqn:Ni; [|injection E as <- <-; exact NOP].
    destruct (n_ended n) eqn:Ne; [injection E as <- <-; exact NOP|].
    assert (Lv : livep (a_nodes s) i n) by (split; auto).
    set (s1 := Audio (a_on s) (a_rate s) (a_ctx s) (a_ref s) (node_off (a_nodes s) i) (tl (a_active s)) (a_count s)) in *.
    assert (I1 : inv s1 (l ++ [EEnded i cur])).
    { destruct I as [C O G A]. constructor; cbn [s1 a_nodes a_count a_ref a_on a_active].
      - eapply core_end1; eauto.
      - rewrite on_app. exact O.
      - apply good_1; [exact G|exact Logic.I].
      - intro B. rewrite A by (eapply order_app; eauto). symmetry. eapply live_off; eauto. intros j x J X.
        apply (c_end _ _ _ _ C _ _ X). eapply (B l i cur []); eauto. destruct (c_node _ _ _ _ C _ _ X) as (c & D). red. eauto. }
    destruct (truthy (a_ref s)) as [r|] eqn:T; [|injection E as <- <-; exact I1].
    destruct (Z.gtb_spec (n_ts n - r) cur) as [W|W]; [|injection E as <- <-; exact I1].
    destruct (schedule s1 (n_sample n) (n_ts n) (n_ts n - r) cur) as [s2 ev] eqn:S2. injection E as <- <-.
    destruct (truthy_spec _ _ T) as [Er _].
    change (EEnded i cur :: ev) with ([EEnded i cur] ++ ev). rewrite app_assoc.
    assert (Same : Audio (a_on s1) (a_rate s1) (a_ctx s1) (Some r) (a_nodes s1) (a_active s1) (a_count s1) = s1) by (cbn; now rewrite <- Er).
    rewrite <- Same in S2. pose proof (i_core _ _ I) as C.
    eapply (inv_play s1 _ (n_sample n) (n_ts n) (n_ts n - r)%Z r cur); eauto; try lia.
    + destruct (c_src _ _ _ _ C _ _ Ni) as (c & x & y & D & B). exists c, x, y. split; [now apply inl|]. intro Z0. apply nz_app in Z0. specialize (B Z0).
      pose proof (c_mono _ _ _ _ C Z0 _ Er _ (nth_error_In _ _ Ni)). lia.
    + intros j x [H A] X. cbn in H. destruct (off_inv _ _ _ _ H) as (y & Y & _ & _ & _ & F1 & F2). assert (N : i <> j) by (intro Q; specialize (F2 Q); congruence).
      rewrite (F1 N) in *. apply N. apply (c_one _ _ _ _ C i j n y Lv (conj Y A)). auto.
    + intros Z0 j ts' w' c' e H1 H2. apply nz_app in Z0. apply in1 in H1, H2. destruct H1 as [H1|H1]; [|discriminate].
      destruct H2 as [H2|H2].
      * destruct (Z.lt_ge_cases e w') as [Q|Q]; [exact Q|]. exfalso. eapply (c_done _ _ _ _ C Z0); eauto.
      * injection H2 as -> ->. destruct (c_play _ _ _ _ C _ _ _ _ _ H1) as (b & X). assert (Hn : Node (n_sample n) ts' w' b = n) by congruence.
        pose proof (c_mono _ _ _ _ C Z0 _ Er _ (nth_error_In _ _ Ni)) as Q. rewrite <- Hn in Q, W at 1. rewrite <- Hn in Q. cbn in *. lia.
    + intro Z0. eapply c_mono; [apply (i_core _ _ I1)|exact Z0|exact Er].
    + destruct (c_ref _ _ _ _ C _ Er) as (a & b & c & d & e & D & X). exists a, b, c, d, e. split; [now apply inl|exact X].
Qed.

Lemma inv_run : forall ops s l s' l', inv s l -> a_run s ops = (s', l') -> inv s' (l ++ l').
Proof.
  induction ops as [|o ops IH]; intros s l s' l' I E; cbn [a_run] in E.
  - injection E as <- <-. now rewrite app_nil_r.
  - destruct (a_step s o) as [s1 a] eqn:E1. destruct (a_run s1 ops) as [s2 b] eqn:E2. injection E as <- <-.
    rewrite app_assoc. eapply IH; eauto. eapply inv_step; eauto.
Qed.

Lemma reach : forall ops s l, a_run a_init ops = (s, l) -> inv s l.
Proof.
  intros ops s l E. apply (inv_run ops a_init [] s l); auto. constructor; cbn; auto.
  - constructor; cbn; try contradiction; try discriminate; auto; try (intros [|i]; discriminate); try (intros [|i] ?; discriminate).
    + intros [|i] j n n' [H _]; discriminate.
  - intros a e b H. destruct a; discriminate.
Qed.

(** ** C189 *)
Lemma future : forall ops s l i no ts w cur, a_run a_init ops = (s, l) -> In (EPlay i no ts w cur) l -> (cur <= w)%Z.
Proof. intros ops s l i no ts w cur E H. apply in_split in H. destruct H as (a & b & ->). destruct (i_good _ _ (reach _ _ _ E) _ _ _ eq_refl) as (A & _). exact A. Qed.
Lemma soon : forall ops s a i no ts w cur b, a_run a_init ops = (s, a ++ EPlay i no ts w cur :: b) -> no_zero a ->
  exists c0 m r, In (ESample no ts c0 m r) a /\ (w <= c0 + m)%Z.
Proof.
  intros ops s a i no ts w cur b E Z0. destruct (i_good _ _ (reach _ _ _ E) _ _ _ eq_refl) as (_ & _ & (c0 & m & r & D & B) & _). exists c0, m, r. auto.
Qed.
(** ** C190 *)
Lemma forward : forall ops s a i no ts w cur b i' no' ts' w' cur', a_run a_init ops = (s, a ++ EPlay i no ts w cur :: b) -> no_zero a ->
  In (EPlay i' no' ts' w' cur') a -> (w - ts <= w' - ts')%Z.
Proof. intros ops s a i no ts w cur b i' no' ts' w' cur' E Z0 D. destruct (i_good _ _ (reach _ _ _ E) _ _ _ eq_refl) as (_ & A & _). eauto. Qed.
(** ** C191 *)
Lemma once : forall ops s a i no ts w cur b j ts' w' cur' e, a_run a_init ops = (s, a ++ EPlay i no ts w cur :: b) -> no_zero a ->
  In (EPlay j no ts' w' cur') a -> In (EEnded j e) a -> (e < w')%Z.
Proof. intros ops s a i no ts w cur b j ts' w' cur' e E Z0 D1 D2. destruct (i_good _ _ (reach _ _ _ E) _ _ _ eq_refl) as (_ & _ & _ & A). eauto. Qed.
(** ** C192 *)
Lemma late_why : forall ops s a no ts cur b, a_run a_init ops = (s, a ++ ELate no ts cur :: b) ->
  exists no' ts' cur' m' r', In (ESample no' ts' cur' m' r') a /\ no' <> no /\ (ts - cur < ts' - cur' - m')%Z.
Proof. intros ops s a no ts cur b E. exact (i_good _ _ (reach _ _ _ E) _ _ _ eq_refl). Qed.
(** ** C193 *)
Lemma hushed : forall ops s a b i, a_run a_init ops = (s, a ++ EOff :: b) -> in_order a -> started a i -> ~ ended a i -> In (EHush i) a.
Proof. intros ops s a b i E O S1 N. exact (i_good _ _ (reach _ _ _ E) _ _ _ eq_refl O i S1 N). Qed.

Lemma off_stays : forall b l, on_of l = false -> ~ In EOn b -> on_of (l ++ b) = false.
Proof.
  induction b as [|e b IH]; intros l H N; [now rewrite app_nil_r|]. change (e :: b) with ([e] ++ b). rewrite app_assoc. apply IH; [|intro D; apply N; right; exact D].
  rewrite on_app. destruct e; auto. exfalso. apply N. left. reflexivity.
Qed.
Lemma off_old : forall ops s a b i no ts w cur c, a_run a_init ops = (s, a ++ EOff :: b ++ EPlay i no ts w cur :: c) -> ~ In EOn b ->
  exists c0 m r, In (ESample no ts c0 m r) a.
Proof.
  intros ops s a b i no ts w cur c E N. pose proof (i_good _ _ (reach _ _ _ E)) as G.
  assert (Q : a ++ EOff :: b ++ EPlay i no ts w cur :: c = (a ++ EOff :: b) ++ EPlay i no ts w cur :: c) by now rewrite <- app_assoc.
  destruct (G _ _ _ Q) as (_ & _ & (c0 & m & r & D & _) & _). exists c0, m, r. apply in_app_or in D. destruct D as [D|[D|D]]; [exact D|discriminate|].
  exfalso. apply in_split in D. destruct D as (x & y & ->).
  assert (Q2 : a ++ EOff :: (x ++ ESample no ts c0 m r :: y) ++ EPlay i no ts w cur :: c = ((a ++ [EOff]) ++ x) ++ ESample no ts c0 m r :: y ++ EPlay i no ts w cur :: c)
    by (rewrite <- !app_assoc; reflexivity).
  pose proof (G _ _ _ Q2) as K. cbn [ok] in K. rewrite off_stays in K; [discriminate|now rewrite on_app|]. intro H. apply N. apply in_or_app. auto.
Qed.

(** ** C194 *)
Record cinv (s : audio) (l : alog) : Prop := {
  k_rate : forall q, a_rate s = Some q -> exists no ts cur m, In (ESample no ts cur m q) l;
  k_none : a_rate s = None -> contexts l = [] /\ (forall no ts cur m q, ~ In (ESample no ts cur m q) l);
  k_on : a_on s = true \/ a_rate s <> None -> In EOn l;
  k_one : enabled_once l -> one_rate l -> length (contexts l) <= 1 }.

Lemma ctx_app : forall a b, contexts (a ++ b) = contexts a ++ contexts b. Proof. intros. apply flat_map_app. Qed.
Lemma once_app : forall l l', enabled_once (l ++ l') -> enabled_once l.
Proof. intros l l' H a b E. eapply H. rewrite E, <- app_assoc. reflexivity. Qed.
Lemma rate_app : forall l l', one_rate (l ++ l') -> one_rate l.
Proof. intros l l' H n1 t1 c1 m1 r1 n2 t2 c2 m2 r2 A B. eapply H; apply in_or_app; left; eauto. Qed.
(** Events that matter neither for rates nor for contexts *)
Definition still (evs : alog) : Prop := contexts evs = [] /\ (forall no ts cur m q, ~ In (ESample no ts cur m q) evs).

Lemma cinv_still : forall s s' l evs, cinv s l -> still evs -> a_rate s' = a_rate s -> (a_on s' = true -> a_on s = true \/ In EOn evs) -> cinv s' (l ++ evs).
Proof.
  intros s s' l evs [R N O L] [S1 S2] E1 E2. constructor.
  - intros q H. rewrite E1 in H. destruct (R _ H) as (a & b & c & d & D). exists a, b, c, d. apply in_or_app. auto.
  - intros H. rewrite E1 in H. destruct (N H) as [A B]. rewrite ctx_app, A, S1. split; [reflexivity|]. intros no ts cur m q D. apply in_app_or in D. destruct D as [D|D]; [eapply B; eauto|eapply S2; eauto].
  - intros H. apply in_or_app. rewrite E1 in H. destruct H as [H|H]; [destruct (E2 H) as [Q|Q]; [left; apply O; auto|auto]|left; apply O; auto].
  - intros A B. rewrite ctx_app, S1, app_nil_r. apply L; [eapply once_app|eapply rate_app]; eauto.
Qed.

Lemma still_hush : forall ids evs, still evs -> still (map EHush ids ++ evs).
Proof. induction ids as [|i ids IH]; intros evs H; cbn; [exact H|]. destruct (IH _ H) as [A B]. split; [exact A|]. intros no ts cur m q [D|D]; [discriminate|eapply B; eauto]. Qed.
Lemma still_1 : forall i no ts w c, still [EPlay i no ts w c].
Proof. intros. split; [reflexivity|]. intros a b x d q [D|[]]. discriminate. Qed.
Lemma emit_still : forall s no ts cur m s' evs, emit s no ts cur m = (s', evs) -> still evs /\ a_rate s' = a_rate s /\ a_on s' = a_on s.
Proof.
  intros s no ts cur m s' evs E. unfold emit, schedule in E. destruct (_ <? _)%Z; [|destruct (_ >? _)%Z]; injection E as <- <-; cbn; (split; [|auto]).
  - split; [reflexivity|]. intros a b x d q [D|[]]. discriminate.
  - apply still_hush, still_1.
  - apply still_1.
Qed.

Lemma cinv_step : forall s l o s' evs, cinv s l -> a_step s o = (s', evs) -> cinv s' (l ++ evs).
Proof.
  intros s l o s' evs I E. assert (NOP : cinv s (l ++ [])) by now rewrite app_nil_r.
  destruct o as [b|ts cur m q|i cur]; cbn [a_step] in E.
  - destruct (Bool.eqb b (a_on s)); [injection E as <- <-; exact NOP|]. destruct b.
    + destruct (a_rate s) as [r|] eqn:Er; injection E as <- <-.
      * assert (ON : In EOn l) by (apply (k_on _ _ I); right; congruence). destruct I as [R N O L]. constructor; cbn [a_rate a_on].
        -- intros q H. injection H as <-. destruct (R _ Er) as (a & b & c & d & D). exists a, b, c, d. apply in_or_app. auto.
        -- discriminate.
        -- intros _. apply in_or_app. auto.
        -- intros A. exfalso. eapply A; eauto.
      * eapply cinv_still; eauto; [split; [reflexivity|intros a b x d q [D|[]]; discriminate]|]. intros _. right. left. reflexivity.
    + injection E as <- <-. eapply cinv_still; eauto; [apply still_hush; split; [reflexivity|intros a b x d q [D|[]]; discriminate]|]. cbn. discriminate.
  - destruct (a_on s) eqn:On; [|injection E as <- <-; exact NOP].
    destruct (emit _ (a_count s) ts cur (Z.of_N m)) as [s2 ev] eqn:Em. injection E as <- <-. destruct (emit_still _ _ _ _ _ _ _ Em) as (S1 & R1 & O1). cbn in R1, O1.
    set (lx := if negb (rate_eqb (a_rate s) q) then [EContext (a_ctx s)] else []).
    change (ESample (a_count s) ts cur (Z.of_N m) q :: lx ++ ev) with ((ESample (a_count s) ts cur (Z.of_N m) q :: lx) ++ ev). rewrite app_assoc.
    eapply (cinv_still (Audio true (Some q) 0 None [] [] 0)); eauto.
    assert (ON : In EOn l) by (apply (k_on _ _ I); auto). destruct I as [R N O L]. constructor; cbn [a_rate a_on].
    + intros q' H. injection H as <-. exists (a_count s), ts, cur, (Z.of_N m). apply in_or_app. right. left. reflexivity.
    + discriminate.
    + intros _. apply in_or_app. auto.
    + intros A B. rewrite ctx_app. cbn [contexts flat_map app]. fold (contexts lx). subst lx.
      destruct (a_rate s) as [r|] eqn:Er; cbn [rate_eqb].
      * destruct (N.eqb_spec r q) as [->|NE].
        -- cbn [negb contexts flat_map]. rewrite app_nil_r. apply L; [eapply once_app|eapply rate_app]; eauto.
        -- exfalso. destruct (R _ eq_refl) as (a & b & c & d & D). apply NE. eapply B; apply in_or_app; [left; exact D|right; left; reflexivity].
      * destruct (N eq_refl) as [Q _]. rewrite Q. cbn. lia.
  - destruct (nth_error (a_nodes s) i) as [n|]; [|injection E as <- <-; exact NOP]. destruct (n_ended n); [injection E as <- <-; exact NOP|].
    assert (P : still [EEnded i cur]) by (split; [reflexivity|intros a b x d q [D|[]]; discriminate]).
    unfold schedule in E. destruct (truthy (a_ref s)) as [r|]; [destruct (_ >? _)%Z|]; injection E as <- <-; eapply cinv_still; eauto; cbn; auto.
    split; [reflexivity|]. intros a b x d q [D|[D|[]]]; discriminate.
Qed.

Lemma cinv_run : forall ops s l s' l', cinv s l -> a_run s ops = (s', l') -> cinv s' (l ++ l').
Proof.
  induction ops as [|o ops IH]; intros s l s' l' I E; cbn [a_run] in E.
  - injection E as <- <-. now rewrite app_nil_r.
  - destruct (a_step s o) as [s1 a] eqn:E1. destruct (a_run s1 ops) as [s2 b] eqn:E2. injection E as <- <-.
    rewrite app_assoc. eapply IH; eauto. eapply cinv_step; eauto.
Qed.
Lemma one_context : forall ops s l, a_run a_init ops = (s, l) -> enabled_once l -> one_rate l -> length (contexts l) <= 1.
Proof.
  intros ops s l E. apply (cinv_run ops a_init [] s l); auto. constructor; cbn; auto; try discriminate. intuition congruence.
Qed.

(** Many contexts *)
Definition toggle (n : nat) : list aop := concat (repeat [AEnable false; AEnable true] n).
Lemma toggles : forall n s, a_on s = true -> a_rate s <> None -> length (contexts (snd (a_run s (toggle n)))) = n.
Proof.
  induction n as [|n IH]; intros s O R; [reflexivity|]. destruct (a_rate s) as [r|] eqn:Er; [|congruence].
  change (toggle (S n)) with (AEnable false :: AEnable true :: toggle n). cbn [a_run a_step]. rewrite O. cbn [Bool.eqb a_on a_rate]. rewrite Er.
  match goal with |- context [a_run ?s0 (toggle n)] => pose proof (IH s0 eq_refl ltac:(discriminate)) as Q; destruct (a_run s0 (toggle n)) as [s2 b] end.
  cbn [snd] in *. rewrite !ctx_app, !app_length, Q. cbn. assert (Z0 : contexts (map EHush (a_active s)) = []) by (clear; induction (a_active s); auto). rewrite Z0. reflexivity.
Qed.

Lemma toggle_quiet : forall n s no ts cur m q, ~ In (ESample no ts cur m q) (snd (a_run s (toggle n))).
Proof.
  assert (S1 : forall s b no ts cur m q, ~ In (ESample no ts cur m q) (snd (a_step s (AEnable b)))).
  { intros s b no ts cur m q. cbn [a_step]. destruct (Bool.eqb b (a_on s)); [intros []|]. destruct b.
    - destruct (a_rate s); cbn; intuition discriminate.
    - intro H. cbn [snd] in H. apply in_app_or in H. destruct H as [H|[H|[]]]; [|discriminate]. apply in_map_iff in H. destruct H as (x & X & _). discriminate. }
  induction n as [|n IH]; intros s no ts cur m q; [intros []|].
  change (toggle (S n)) with (AEnable false :: AEnable true :: toggle n). cbn [a_run].
  pose proof (S1 s false no ts cur m q) as A. destruct (a_step s (AEnable false)) as [s1 l1].
  pose proof (S1 s1 true no ts cur m q) as B. destruct (a_step s1 (AEnable true)) as [s2 l2].
  pose proof (IH s2 no ts cur m q) as C. destruct (a_run s2 (toggle n)) as [s3 l3]. cbn [snd] in *.
  intro H. apply in_app_or in H. destruct H as [H|H]; [auto|]. apply in_app_or in H. destruct H; auto.
Qed.

(** ** C192: silence *)
Lemma silent : forall xs s r, a_on s = true -> a_ref s = Some r -> r <> 0%Z -> (forall ts cur m q, In (ASample ts cur m q) xs -> (ts - cur < r)%Z) ->
  (forall o, In o xs -> exists ts cur m q, o = ASample ts cur m q) -> forall i no ts w c, ~ In (EPlay i no ts w c) (snd (a_run s xs)).
Proof.
  induction xs as [|o xs IH]; intros s r O R NZ H F i no ts w c D; [exact D|]. destruct (F o (or_introl eq_refl)) as (ts0 & cur0 & m0 & q0 & ->).
  cbn [a_run a_step] in D. rewrite O in D. unfold emit in D. cbn [a_ref] in D. rewrite R in D. cbn [truthy] in D.
  replace (r =? 0)%Z with false in D by (symmetry; now apply Z.eqb_neq). pose proof (H _ _ _ _ (or_introl eq_refl)) as L.
  replace (ts0 - r - cur0 <? 0)%Z with true in D by (symmetry; apply Z.ltb_lt; lia).
  match type of D with context [a_run ?s0 xs] => pose proof (IH s0 r eq_refl eq_refl NZ) as Q; destruct (a_run s0 xs) as [s2 b] end.
  cbn [snd] in *. cbn [app] in D. destruct D as [D|D]; [discriminate|]. apply in_app_or in D. destruct D as [D|D].
  - apply in_app_or in D. destruct D as [D|D]; [destruct (negb _); cbn in D; intuition discriminate|cbn in D; intuition discriminate].
  - revert D. apply Q; [intros; eapply H; right; eauto|intros; apply F; right; auto].
Qed.
