(** The broadcast's calls and cleanup tasks over the catalog track. *)
From Coq Require Import NArith ZArith List Lia Bool Arith Sorted Permutation.
From Coq Require Import Init.Byte Strings.Byte.
From Verif.Model Require Import Base ErrorCode Stream Frame FrameSys GroupSys TrackSys Media Catalog.
From Verif.Spec Require Import CatalogSpec.
From Verif.Proofs Require Import BaseP TableP MediaP CatalogP.
Import ListNotations.
Open Scope nat_scope.

Section TaskP.
Context {V A L : Type} (veq : V -> V -> bool) (aeq : A -> A -> bool).
Notation catalog := (catalog V A L).
Context (json : catalog -> bytes) (parse : bytes -> option catalog).
Context (w : N) (m : mode).
Notation rendition := (rendition V A).
Notation cevent := (cop V A L * cout V A L)%type.
Notation bevent := (bcop V A L * bcout V A L)%type.
Notation cstep := (cstep veq aeq json parse w m).
Notation crun := (crun veq aeq json parse w m).
Notation bcstep := (bcstep veq aeq json parse w m).
Notation bcrun := (bcrun veq aeq json parse w m).
Notation cinv := (cinv veq aeq json parse).
Notation req := (req veq aeq).
Notation snaps := (snaps veq aeq).
Notation fits := (fits veq aeq json w).
Ltac conjs := repeat match goal with |- _ /\ _ => split end.

Definition empty : catalog := Catalog [] [] None.

(** * Lists of entries *)
Definition vids (es : list (rendition * nat)) : list V := flat_map (fun x => match fst x with RV v => [v] | RA _ => [] end) es.
Definition auds (es : list (rendition * nat)) : list A := flat_map (fun x => match fst x with RA a => [a] | RV _ => [] end) es.
Definition catalog_of (es : list (rendition * nat)) : catalog := Catalog (vids es) (auds es) None.

Lemma renditions_of es : Permutation (renditions (catalog_of es)) (map fst es).
Proof.
  unfold renditions. cbn [ct_video ct_audio catalog_of]. induction es as [|[[v|a] k] es IH]; cbn; auto.
  rewrite <- Permutation_middle. auto.
Qed.

Lemma apply_add es r k : apply veq aeq (add_of r) (catalog_of es) = catalog_of (es ++ [(r, k)]).
Proof.
  unfold catalog_of, vids, auds. rewrite !flat_map_app. destruct r; cbn; rewrite ?app_nil_r; reflexivity.
Qed.
Lemma apply_rem es r : apply veq aeq (rem_of r) (catalog_of es) = catalog_of (filter (fun x => negb (req (fst x) r)) es).
Proof.
  unfold catalog_of, vids, auds.
  assert (EV : forall v, filter (fun x => negb (veq x v)) (flat_map (fun x : rendition * nat => match fst x with RV v => [v] | RA _ => [] end) es) = flat_map (fun x : rendition * nat => match fst x with RV v => [v] | RA _ => [] end) (filter (fun x => negb (req (fst x) (RV v))) es) /\
    (flat_map (fun x : rendition * nat => match fst x with RA a => [a] | RV _ => [] end) es) = flat_map (fun x : rendition * nat => match fst x with RA v => [v] | RV _ => [] end) (filter (fun x => negb (req (fst x) (RV v))) es)).
  { intros v. induction es as [|[[v'|a'] k] es [IH1 IH2]]; cbn; auto.
    - destruct (veq v' v); cbn; split; congruence.
    - split; congruence. }
  assert (EA : forall a, filter (fun x => negb (aeq x a)) (flat_map (fun x : rendition * nat => match fst x with RA a => [a] | RV _ => [] end) es) = flat_map (fun x : rendition * nat => match fst x with RA v => [v] | RV _ => [] end) (filter (fun x => negb (req (fst x) (RA a))) es) /\
    (flat_map (fun x : rendition * nat => match fst x with RV v => [v] | RA _ => [] end) es) = flat_map (fun x : rendition * nat => match fst x with RV v => [v] | RA _ => [] end) (filter (fun x => negb (req (fst x) (RA a))) es)).
  { intros v. clear EV. induction es as [|[[v'|a'] k] es [IH1 IH2]]; cbn; auto.
    - split; congruence.
    - destruct (aeq a' v); cbn; split; congruence. }
  destruct r as [v|a]; cbn [rem_of apply ct_video ct_audio ct_location].
  - destruct (EV v). congruence.
  - destruct (EA a). congruence.
Qed.

Lemma filter_split {B} (f : B -> bool) l : Permutation l (filter f l ++ filter (fun x => negb (f x)) l).
Proof.
  induction l as [|x l IH]; cbn; auto. destruct (f x); cbn; auto. rewrite <- Permutation_middle. auto.
Qed.

(** * Where a thread is *)
Inductive phase :=
| PIdle | PAdd (r : rendition) (k : nat) | PPub (r : rendition) (k : nat) | PPubing (r : rendition) (k : nat)
| PSpawn (r : rendition) (k : nat) | PWait (r : rendition) (k : nat) | PRem (r : rendition) (k : nat)
| PPubD | PPubingD | PDrop.
Definition todo_of (p : phase) : list (act V A L) :=
  match p with
  | PIdle => []
  | PAdd r k => [DoChange (add_of r); DoPublish; Spawn r k]
  | PPub r k => [DoPublish; Spawn r k]
  | PPubing r k => [Publishing; Spawn r k]
  | PSpawn r k => [Spawn r k]
  | PWait r k => [Wait k; DoChange (rem_of r); DoPublish; DropIt]
  | PRem r k => [DoChange (rem_of r); DoPublish; DropIt]
  | PPubD => [DoPublish; DropIt]
  | PPubingD => [Publishing; DropIt]
  | PDrop => [DropIt]
  end.
Definition publishing (p : phase) : bool := match p with PPubing _ _ | PPubingD => true | _ => false end.
Definition to_publish (p : phase) : bool := match p with PPub _ _ | PPubD => true | _ => false end.
(** The rendition that this thread, or the task it will spawn, will remove. *)
Definition covers (p : phase) : option (rendition * nat) :=
  match p with PPub r k | PPubing r k | PSpawn r k | PWait r k | PRem r k => Some (r, k) | _ => None end.
Definition waits (p : phase) : list (rendition * nat) := match p with PAdd r k => [(r, k)] | _ => [] end.
Definition mk (x : nat * phase) : thread V A L := Thread (fst x) (todo_of (snd x)).
Definition pend (phs : list (nat * phase)) : list (rendition * nat) := flat_map (fun x => waits (snd x)) phs.

Notation prods s := (ts_prods (cs_track (bs_cat s))).

Notation sub := catalog_from.

Record binv (s : bcsys V A L) (tr : list bevent) (ctr : list cevent) (phs : list (nat * phase)) : Prop := {
  bi_run : exists cops, crun (csys_new empty) cops = (bs_cat s, ctr);
  bi_snaps : Forall (sub (map fst (asked tr))) (snaps empty ctr) /\ length (snaps empty ctr) <= length tr;
  bi_reads : reads (reader_events tr) = reads ctr;
  bi_threads : bs_threads s = map mk phs;
  bi_nodup : NoDup (map fst phs);
  bi_handles : forall h p, In (h, p) phs -> h < length (prods s) /\ (p <> PIdle -> get (prods s) h <> None);
  bi_closed : ts_closed (cs_track (bs_cat s)) = None;
  bi_lock : forall p k, cs_lock (bs_cat s) = Held p k -> exists q, In (p, q) phs /\ publishing q = true;
  bi_pub : forall h p, In (h, p) phs -> publishing p = true -> exists k, cs_lock (bs_cat s) = Held h k;
  bi_ended : forall k, nth_error (bs_ended s) k = Some true <-> has_ended tr k = true;
  bi_rem : forall h r k, In (h, PRem r k) phs -> has_ended tr k = true;
  bi_covers : forall h p x, In (h, p) phs -> covers p = Some x -> In x (asked tr);
  bi_acct : exists ents gone, cs_cur (bs_cat s) = catalog_of ents /\
      Permutation (asked tr) (ents ++ pend phs ++ gone) /\
      (forall x, In x ents -> exists h p, In (h, p) phs /\ covers p = Some x) /\
      (forall x, In x gone -> exists y, In y (asked tr) /\ has_ended tr (snd y) = true /\ req (fst x) (fst y) = true);
  bi_clean : (exists pre, publications [] ctr = pre ++ [changes ctr]) \/ (changes ctr = [] /\ publications [] ctr = []) \/
      (exists h p, In (h, p) phs /\ to_publish p = true);
  bi_first : changes ctr = [] -> Permutation (asked tr) (pend phs) }.

Notation bounded := (bounded json w).

Lemma asked_snoc (tr : list bevent) e : asked (tr ++ [e]) = asked tr ++ asked [e].
Proof. apply flat_map_app. Qed.
Lemma ended_snoc (tr : list bevent) e k : has_ended (tr ++ [e]) k = has_ended tr k || has_ended [e] k.
Proof. apply existsb_app. Qed.
Lemma reader_events_snoc (tr : list bevent) e : reader_events (tr ++ [e]) = reader_events tr ++ reader_events [e].
Proof. apply flat_map_app. Qed.

Lemma sub_app rs more (c : catalog) : sub rs c -> sub (rs ++ more) c.
Proof. intros [H (rest & P)]. split; auto. exists (rest ++ more). rewrite app_assoc, <- P. reflexivity. Qed.

Lemma bounded_snoc tr e : bounded (tr ++ [e]) -> bounded tr.
Proof.
  intros [S N]. split.
  - intros c Hc. apply S. rewrite asked_snoc, map_app. apply sub_app. auto.
  - rewrite app_length in N. lia.
Qed.

Lemma binv_new : binv bcsys_new [] [] [(0, PIdle)].
Proof.
  split; cbn; try reflexivity; try discriminate; try tauto.
  - exists []. reflexivity.
  - split; auto.
  - repeat constructor. auto.
  - intros h p [H|[]]. injection H as <- <-. split; [lia|congruence].
  - intros h p [H|[]]. injection H as <- <-. discriminate.
  - intros k. destruct k; split; discriminate.
  - intros h r k [H|[]]. discriminate.
  - intros h p x [H|[]]. injection H as <- <-. discriminate.
  - exists [], []. repeat split; auto; intros x [].
Qed.

Lemma binv_fits s tr ctr phs : binv s tr ctr phs -> bounded tr -> fits empty ctr.
Proof.
  intros I [S N]. destruct (bi_snaps _ _ _ _ I) as [F Ln]. split; [|lia].
  eapply Forall_impl; [|exact F]. auto.
Qed.
Lemma binv_cinv s tr ctr phs : binv s tr ctr phs -> bounded tr -> cinv empty (bs_cat s) ctr.
Proof.
  intros I B. destruct (bi_run _ _ _ _ I) as (cops & Hr). eapply cinv_run; eauto. eapply binv_fits; eauto.
Qed.

Lemma binv_not_bad s tr ctr phs : binv s tr ctr phs -> bounded tr -> cs_lock (bs_cat s) <> Poisoned.
Proof.
  intros I B E. destruct (binv_cinv _ _ _ _ I B) as [P _]. destruct P as [_ _ T]. apply (to_bad _ T) in E.
  apply E. apply (bi_closed _ _ _ _ I).
Qed.

Lemma handle_free s tr ctr phs h p : binv s tr ctr phs -> bounded tr -> In (h, p) phs -> get (prods s) h <> None ->
  publishing p = false -> free_handle (bs_cat s) h = true.
Proof.
  intros I B Hin Hg Hp. destruct (binv_cinv _ _ _ _ I B) as [P _]. destruct P as [_ _ T].
  assert (Nh : forall k, cs_lock (bs_cat s) <> Held h k).
  { intros k Hk. destruct (bi_lock _ _ _ _ I _ _ Hk) as (q & Hq & Pq).
    assert (E : p = q); [|congruence]. pose proof (bi_nodup _ _ _ _ I) as Nd. clear -Hin Hq Nd.
    induction phs as [|[h0 q0] phs IH]; cbn in *; [tauto|]. inversion Nd; subst.
    destruct Hin as [E|Hin], Hq as [E'|Hq]; try congruence; auto.
    - injection E as -> ->. destruct H1. apply in_map_iff. exists (h, q). auto.
    - injection E' as -> ->. destruct H1. apply in_map_iff. exists (h, p). auto. }
  unfold free_handle, idle. destruct (get (prods s) h) as [[|n]|] eqn:Eg; [| |congruence].
  - cbn. destruct (cs_lock (bs_cat s)) as [| |q k] eqn:El; auto. apply negb_true_iff, Nat.eqb_neq. intros <-. eapply Nh; eauto.
  - destruct (to_app _ T _ _ Eg) as [El _]. destruct (Nh _ El).
Qed.

Lemma crun_ext cops c ctr o : crun (csys_new empty) cops = (c, ctr) ->
  crun (csys_new empty) (cops ++ [o]) = let (c', x) := cstep c o in (c', ctr ++ [(o, x)]).
Proof. intros H. rewrite crun_snoc, H. reflexivity. Qed.

(** Replacing the phase of one thread. *)
Lemma phs_at (phs : list (nat * phase)) i h p q : nth_error phs i = Some (h, p) ->
  exists a b, phs = a ++ (h, p) :: b /\ set_nth i (h, q) phs = a ++ (h, q) :: b.
Proof. intros H. destruct (set_nth_split _ (h, q) _ _ H) as (a & b & E1 & E2 & _). eauto. Qed.

Lemma map_set {B C} (f : B -> C) i x l : map f (set_nth i x l) = set_nth i (f x) (map f l).
Proof. revert i; induction l; intros [|i]; cbn; auto. f_equal; auto. Qed.

Lemma nodup_at (a b : list (nat * phase)) h p q : NoDup (map fst (a ++ (h, p) :: b)) -> NoDup (map fst (a ++ (h, q) :: b)).
Proof. rewrite !map_app. auto. Qed.

Lemma other_handle (a b : list (nat * phase)) h p h' (q : phase) : NoDup (map fst (a ++ (h, p) :: b)) -> In (h', q) (a ++ b) -> h' <> h.
Proof.
  rewrite map_app. cbn. intros N Hin ->. apply NoDup_remove_2 in N. apply N. rewrite <- map_app. apply in_map_iff.
  exists (h, q). auto.
Qed.

Lemma in_at {B} a b (x y : B) : In y (a ++ x :: b) <-> y = x \/ In y (a ++ b).
Proof. rewrite !in_app_iff. cbn. split; intuition (subst; auto). Qed.

Lemma pend_at a b h p : Permutation (pend (a ++ (h, p) :: b)) (waits p ++ pend (a ++ b)).
Proof.
  unfold pend. rewrite !flat_map_app. cbn. rewrite !app_assoc. apply Permutation_app; auto. apply Permutation_app_comm.
Qed.

(** * Steps that do not concern the catalog's content *)

Definition quiet (e : bevent) : Prop :=
  asked [e] = [] /\ (forall k, has_ended [e] k = false) /\ reader_events [e] = [].

(** The general step of thread [i] without a change to the content of the catalog or the calls made. *)
Lemma binv_move s tr ctr a b h p q c' ctr' o :
  binv s tr ctr (a ++ (h, p) :: b) ->
  (exists cops, crun (csys_new empty) cops = (c', ctr')) ->
  cs_cur c' = cs_cur (bs_cat s) ->
  reads ctr' = reads ctr ->
  (snaps empty ctr' = snaps empty ctr \/ snaps empty ctr' = snaps empty ctr ++ [cs_cur (bs_cat s)]) ->
  ((exists pre, publications [] ctr' = pre ++ [changes ctr']) \/ (publications [] ctr' = publications [] ctr /\ changes ctr' = changes ctr /\ to_publish p = false)) ->
  ts_closed (cs_track c') = None ->
  (forall h', h' <> h -> get (ts_prods (cs_track c')) h' = get (prods s) h') ->
  length (ts_prods (cs_track c')) = length (prods s) ->
  (q <> PIdle -> get (ts_prods (cs_track c')) h <> None) ->
  (forall h' k, cs_lock c' = Held h' k -> (h' = h /\ publishing q = true) \/ (h' <> h /\ cs_lock (bs_cat s) = Held h' k)) ->
  (forall h' k, h' <> h -> cs_lock (bs_cat s) = Held h' k -> exists k', cs_lock c' = Held h' k') ->
  (publishing q = true -> exists k, cs_lock c' = Held h k) ->
  (forall r k, q = PRem r k -> has_ended tr k = true) ->
  covers q = covers p -> waits p = [] -> waits q = [] ->
  quiet (o, BUnit) -> changes ctr' = changes ctr ->
  binv (BCSys c' (map mk (a ++ (h, q) :: b)) (bs_ended s)) (tr ++ [(o, BUnit)]) ctr' (a ++ (h, q) :: b).
Proof.
  intros I Hrun Hcur Hreads Hsn Hcl Hclosed Hg Hlen Hq Hl1 Hl2 Hpq Hrem Hcov Hw1 Hw2 (Q1 & Q2 & Q3) Hch.
  pose proof (bi_nodup _ _ _ _ I) as Nd.
  assert (As : asked (tr ++ [(o, BUnit)]) = asked tr) by (rewrite asked_snoc, Q1; apply app_nil_r).
  assert (En : forall k, has_ended (tr ++ [(o, BUnit)]) k = has_ended tr k) by (intros k; rewrite ended_snoc, Q2; apply orb_false_r).
  destruct (bi_acct _ _ _ _ I) as (ents & gone & Ac & Ap & Ae & Ag).
  split; cbn [bs_cat bs_threads bs_ended]; rewrite ?As; auto.
  - destruct (bi_snaps _ _ _ _ I) as [F Ln]. rewrite app_length. cbn [length]. destruct Hsn as [->| ->]; [split; auto; lia|].
    rewrite app_length. cbn. split; [|lia]. apply Forall_app. split; auto. constructor; auto. rewrite Ac. split; auto.
    exists (map fst (pend (a ++ (h, p) :: b) ++ gone)). rewrite renditions_of, <- map_app. apply Permutation_map. auto.
  - rewrite reader_events_snoc, Q3, app_nil_r, Hreads. apply (bi_reads _ _ _ _ I).
  - eapply nodup_at; eauto.
  - intros h' p' Hin. apply in_at in Hin as [E|Hin].
    + injection E as -> ->. rewrite Hlen. split; auto.
      apply (bi_handles _ _ _ _ I h p). apply in_at. auto.
    + pose proof (other_handle _ _ _ _ _ _ Nd Hin) as Ne. rewrite Hlen, Hg by auto.
      apply (bi_handles _ _ _ _ I h' p'). apply in_at. auto.
  - intros h' k Hk. destruct (Hl1 _ _ Hk) as [[-> Pq]|[Ne Hk']].
    + exists q. split; auto. apply in_at. auto.
    + destruct (bi_lock _ _ _ _ I _ _ Hk') as (q' & Hin & Pq'). exists q'. split; auto.
      apply in_at in Hin as [E|Hin]; [injection E as -> ->; congruence|]. apply in_at. auto.
  - intros h' p' Hin Pp. apply in_at in Hin as [E|Hin]; [injection E as -> ->; auto|].
    pose proof (other_handle _ _ _ _ _ _ Nd Hin) as Ne.
    destruct (bi_pub _ _ _ _ I h' p') as (k & Hk); [apply in_at; auto|auto|]. eauto.
  - intros k. rewrite En. apply (bi_ended _ _ _ _ I).
  - intros h' r k Hin. rewrite En. apply in_at in Hin as [E|Hin].
    + injection E as -> E. symmetry in E. eauto.
    + apply (bi_rem _ _ _ _ I h' r k). apply in_at. auto.
  - intros h' p' x Hin Hc. apply in_at in Hin as [E|Hin].
    + injection E as -> ->. rewrite Hcov in Hc. apply (bi_covers _ _ _ _ I h p x); auto. apply in_at. auto.
    + apply (bi_covers _ _ _ _ I h' p' x); auto. apply in_at. auto.
  - exists ents, gone. rewrite Hcur. split; auto. split; [|split].
    + rewrite Ap, pend_at, pend_at, Hw1, Hw2. reflexivity.
    + intros x Hx. destruct (Ae x Hx) as (h' & p' & Hin & Hc). apply in_at in Hin as [E|Hin].
      * injection E as -> ->. exists h, q. split; [apply in_at; auto|congruence].
      * exists h', p'. split; auto. apply in_at. auto.
    + intros x Hx. destruct (Ag x Hx) as (y & Hy & Ey & Ry). exists y. rewrite En. auto.
  - destruct Hcl as [Hcl|(E1 & E2 & Hp)]; auto. rewrite E1, E2.
    destruct (bi_clean _ _ _ _ I) as [H|[H|(h' & p' & Hin & Hp')]]; auto. right; right.
    apply in_at in Hin as [E|Hin]; [injection E as -> ->; congruence|]. exists h', p'. split; auto. apply in_at. auto.
  - rewrite Hch. intros E. rewrite (bi_first _ _ _ _ I E), pend_at, pend_at, Hw1, Hw2. reflexivity.
Qed.

(** Only the trace grows. *)
Lemma binv_trace s tr ctr phs e : binv s tr ctr phs -> asked [e] = [] -> (forall k, has_ended [e] k = false) ->
  reads (reader_events (tr ++ [e])) = reads ctr -> binv s (tr ++ [e]) ctr phs.
Proof.
  intros I Ea Ee Er.
  assert (As : asked (tr ++ [e]) = asked tr) by (rewrite asked_snoc, Ea; apply app_nil_r).
  assert (En : forall k, has_ended (tr ++ [e]) k = has_ended tr k) by (intros k; rewrite ended_snoc, Ee; apply orb_false_r).
  destruct I. split; rewrite ?As; auto.
  - destruct bi_snaps0. split; auto. rewrite app_length. lia.
  - intros k. rewrite En. auto.
  - intros h r k Hin. rewrite En. eauto.
  - destruct bi_acct0 as (ents & gone & H1 & H2 & H3 & H4). exists ents, gone. conjs; auto.
    intros x Hx. destruct (H4 x Hx) as (y & Hy & Ey & Ry). exists y. rewrite En. auto.
Qed.
Lemma binv_quiet s tr ctr phs e : binv s tr ctr phs -> quiet e -> binv s (tr ++ [e]) ctr phs.
Proof.
  intros I (Ea & Ee & Er). apply binv_trace; auto. rewrite reader_events_snoc, Er, app_nil_r. apply (bi_reads _ _ _ _ I).
Qed.

(** A change of the content. *)
Lemma binv_content s tr ctr a b h p q d :
  binv s tr ctr (a ++ (h, p) :: b) -> 
  cstep (bs_cat s) (CChange h d) = (cwith_cur (bs_cat s) (apply veq aeq d (cs_cur (bs_cat s))), CUnit) ->
  publishing p = false -> to_publish q = true -> p <> PIdle -> 
  (forall x, covers q = Some x -> In x (asked tr)) ->
  (exists ents gone, apply veq aeq d (cs_cur (bs_cat s)) = catalog_of ents /\
      Permutation (asked tr) (ents ++ pend (a ++ (h, q) :: b) ++ gone) /\
      (forall x, In x ents -> exists h' p', In (h', p') (a ++ (h, q) :: b) /\ covers p' = Some x) /\
      (forall x, In x gone -> exists y, In y (asked tr) /\ has_ended tr (snd y) = true /\ req (fst x) (fst y) = true)) ->
  binv (BCSys (cwith_cur (bs_cat s) (apply veq aeq d (cs_cur (bs_cat s)))) (map mk (a ++ (h, q) :: b)) (bs_ended s))
    (tr ++ [(BGo (length a), BUnit)]) (ctr ++ [(CChange h d, CUnit)]) (a ++ (h, q) :: b).
Proof.
  intros I Hst Hpp Hq Hp Hcov (ents & gone & Ac & Ap & Ae & Ag).
  assert (Hpq : publishing q = false) by (destruct q; cbn in *; congruence).
  pose proof (bi_nodup _ _ _ _ I) as Nd.
  assert (As : asked (tr ++ [(@BGo V A L (length a), @BUnit V A L)]) = asked tr) by (rewrite asked_snoc; apply app_nil_r).
  assert (En : forall k, has_ended (tr ++ [(@BGo V A L (length a), @BUnit V A L)]) k = has_ended tr k) by (intros k; rewrite ended_snoc; apply orb_false_r).
  split; cbn [bs_cat bs_threads bs_ended cs_track cs_lock cs_cur cwith_cur]; rewrite ?As.
  - destruct (bi_run _ _ _ _ I) as (cops & Hr). exists (cops ++ [CChange h d]). rewrite (crun_ext _ _ _ _ Hr), Hst. reflexivity.
  - rewrite snaps_snoc, !app_nil_r, app_length. cbn. destruct (bi_snaps _ _ _ _ I). split; auto. lia.
  - rewrite reads_snoc, reader_events_snoc. cbn. rewrite app_nil_r. apply (bi_reads _ _ _ _ I).
  - reflexivity.
  - eapply nodup_at; eauto.
  - intros h' p' Hin. apply in_at in Hin as [E|Hin].
    + injection E as -> ->. destruct (bi_handles _ _ _ _ I h p); [apply in_at; auto|]. auto.
    + apply (bi_handles _ _ _ _ I h' p'). apply in_at. auto.
  - apply (bi_closed _ _ _ _ I).
  - intros h' k Hk. destruct (bi_lock _ _ _ _ I _ _ Hk) as (q' & Hin & Pq'). exists q'. split; auto.
    apply in_at in Hin as [E|Hin]; [injection E as -> ->; congruence|]. apply in_at. auto.
  - intros h' p' Hin Pp. apply in_at in Hin as [E|Hin]; [injection E as -> ->; congruence|].
    apply (bi_pub _ _ _ _ I h' p'); auto. apply in_at; auto.
  - intros k. rewrite En. apply (bi_ended _ _ _ _ I).
  - intros h' r k Hin. rewrite En. apply in_at in Hin as [E|Hin].
    + injection E as -> <-. discriminate.
    + apply (bi_rem _ _ _ _ I h' r k). apply in_at. auto.
  - intros h' p' x Hin Hc. apply in_at in Hin as [E|Hin].
    + injection E as -> ->. auto.
    + apply (bi_covers _ _ _ _ I h' p' x); auto. apply in_at. auto.
  - exists ents, gone. conjs; auto. intros x Hx. destruct (Ag x Hx) as (y & Hy & Ey & Ry). exists y. rewrite En. auto.
  - right; right. exists h, q. split; auto. apply in_at. auto.
  - rewrite changes_snoc. cbn. intros E. destruct (changes ctr); discriminate.
Qed.

Lemma set_at (a b : list (nat * phase)) h p q : set_nth (length a) (mk (h, q)) (map mk (a ++ (h, p) :: b)) = map mk (a ++ (h, q) :: b).
Proof. rewrite !map_app. cbn. induction a; cbn; [auto|f_equal; auto]. Qed.

Lemma phs_split (phs : list (nat * phase)) i x : nth_error phs i = Some x -> exists a b, phs = a ++ x :: b /\ length a = i.
Proof. intros H. destruct (nth_error_split _ _ H) as (a & b & E & Ln). eauto. Qed.

Notation refl_on := (self_equal veq aeq).

Lemma reads_quiet (ctr : list cevent) o x : (forall ls, read_event ls (o, x) = ls) -> reads (ctr ++ [(o, x)]) = reads ctr.
Proof. intros H. rewrite reads_snoc. apply H. Qed.

(** One step of a thread. *)
Lemma step_go s tr ctr phs i : binv s tr ctr phs -> bounded (tr ++ [(BGo i, BUnit)]) -> refl_on (map fst (asked tr)) ->
  let '(s', x) := bcstep s (BGo i) in
  x <> BPanic /\ exists ctr' phs', binv s' (tr ++ [(BGo i, x)]) ctr' phs' /\
  (x = BBad \/ x = BWait -> s' = s /\ forall h p, nth_error phs i = Some (h, p) ->
     p = PIdle \/ (exists r k, p = PWait r k /\ has_ended tr k = false) \/ exists p k, cs_lock (bs_cat s) = Held p k).
Proof.
  intros I B Rf. pose proof (bounded_snoc _ _ B) as B0.
  pose proof (binv_cinv _ _ _ _ I B0) as CI. pose proof (binv_not_bad _ _ _ _ I B0) as Nb.
  pose proof (binv_fits _ _ _ _ I B0) as Fi.
  assert (Q : forall x, quiet (@BGo V A L i, x)) by (intros x; repeat split; reflexivity).
  destruct (nth_error (bs_threads s) i) as [th|] eqn:Eth; cycle 1.
  { cbn [Catalog.bcstep]. rewrite Eth. split; [discriminate|]. exists ctr, phs. split; [apply binv_quiet; auto|].
    intros _. split; auto. intros h p Hp. rewrite (bi_threads _ _ _ _ I), nth_error_map, Hp in Eth. discriminate. }
  rewrite (bi_threads _ _ _ _ I), nth_error_map in Eth. destruct (nth_error phs i) as [[h p]|] eqn:Ep; [|discriminate].
  injection Eth as <-.
  assert (Ent : nth_error (bs_threads s) i = Some (mk (h, p))) by (rewrite (bi_threads _ _ _ _ I), nth_error_map, Ep; reflexivity).
  cbn [Catalog.bcstep]. rewrite Ent. unfold mk. cbn [fst snd].
  destruct (phs_split _ _ _ Ep) as (a & b & -> & Li).
  assert (Hin : In (h, p) (a ++ (h, p) :: b)) by (apply in_at; auto).
  assert (Hst : forall c q, set_todo s c i h (todo_of q) = BCSys c (map mk (a ++ (h, q) :: b)) (bs_ended s)).
  { intros c q. unfold set_todo. rewrite (bi_threads _ _ _ _ I), <- Li. change (Thread h (todo_of q)) with (mk (h, q)). rewrite (set_at a b h p q). reflexivity. }
  destruct (bi_handles _ _ _ _ I _ _ Hin) as [Lh Gh].
  destruct (bi_run _ _ _ _ I) as (cops & Hrun).
  assert (Stay : forall x, x = BWait \/ x = BBad -> (p = PIdle \/ (exists r k, p = PWait r k /\ has_ended tr k = false) \/ exists p k, cs_lock (bs_cat s) = Held p k) ->
    x <> BPanic /\ exists ctr' phs', binv s (tr ++ [(BGo i, x)]) ctr' phs' /\
    (x = BBad \/ x = BWait -> s = s /\ forall h0 p0, Some (h, p) = Some (h0, p0) ->
     p0 = PIdle \/ (exists r k, p0 = PWait r k /\ has_ended tr k = false) \/ exists p k, cs_lock (bs_cat s) = Held p k)).
  { intros x Hx H. split; [destruct Hx; congruence|]. exists ctr, (a ++ (h, p) :: b). split; [apply binv_quiet; auto|].
    intros _. split; auto. intros h0 p0 E. injection E as <- <-. auto. }
  assert (Moved : forall s', (exists ctr' phs', binv s' (tr ++ [(BGo i, BUnit)]) ctr' phs') -> 
    @BUnit V A L <> BPanic /\ exists ctr' phs', binv s' (tr ++ [(BGo i, BUnit)]) ctr' phs' /\
    (@BUnit V A L = BBad \/ @BUnit V A L = BWait -> s' = s /\ forall h0 p0, Some (h, p) = Some (h0, p0) ->
     p0 = PIdle \/ (exists r k, p0 = PWait r k /\ has_ended tr k = false) \/ exists p k, cs_lock (bs_cat s) = Held p k)).
  { intros s' (ctr' & phs' & H). split; [discriminate|]. exists ctr', phs'. split; auto. intros [E|E]; discriminate. }
  (* locking *)
  assert (Change : forall d, p <> PIdle -> publishing p = false ->
    cstep (bs_cat s) (CChange h d) = match cs_lock (bs_cat s) with Free => (cwith_cur (bs_cat s) (apply veq aeq d (cs_cur (bs_cat s))), CUnit) | Poisoned => (bs_cat s, CPanic) | Held _ _ => (bs_cat s, CBlock) end).
  { intros d Np Hp. cbn [Catalog.cstep]. rewrite (handle_free _ _ _ _ h p I B0); auto. }
  assert (Publish : p <> PIdle -> publishing p = false ->
    cstep (bs_cat s) (CPublish h) = match cs_lock (bs_cat s) with Free => (cwith_lock (bs_cat s) (Held h PAppend1), CUnit) | Poisoned => (bs_cat s, CPanic) | Held _ _ => (bs_cat s, CBlock) end).
  { intros Np Hp. cbn [Catalog.cstep]. rewrite (handle_free _ _ _ _ h p I B0); auto. }
  assert (PubStep : forall q, p <> PIdle -> to_publish p = true -> covers q = covers p -> publishing q = true -> waits p = [] -> waits q = [] ->
     (forall r k, q <> PRem r k) -> cs_lock (bs_cat s) = Free ->
     binv (BCSys (cwith_lock (bs_cat s) (Held h PAppend1)) (map mk (a ++ (h, q) :: b)) (bs_ended s)) (tr ++ [(BGo i, BUnit)]) (ctr ++ [(CPublish h, CUnit)]) (a ++ (h, q) :: b)).
  { intros q Np Hp Hc Hq W1 W2 Nr Hf. subst i.
    assert (Pp : publishing p = false) by (destruct p; cbn in *; congruence).
    eapply (binv_move _ _ _ _ _ _ _ _ _ _ _ I); auto; try (rewrite changes_snoc; cbn; apply app_nil_r).
    - exists (cops ++ [CPublish h]). rewrite (crun_ext _ _ _ _ Hrun), Publish, Hf; auto.
    - apply reads_quiet. reflexivity.
    - right. rewrite snaps_snoc. destruct CI as [[C _ _] _]. rewrite C. reflexivity.
    - left. exists (publications [] ctr). rewrite publications_snoc, changes_snoc. cbn. rewrite app_nil_r. reflexivity.
    - apply (bi_closed _ _ _ _ I).
    - cbn. intros h' k E. injection E as <- <-. auto.
    - rewrite Hf. discriminate.
    - intros _. exists PAppend1. reflexivity.
    - intros r k E. destruct (Nr r k E). }
  assert (PubMore : forall q q', p <> PIdle -> publishing p = true -> covers q = covers p -> waits p = [] -> waits q = [] -> q <> PIdle -> publishing q = false ->
     (forall r k, q <> PRem r k) -> todo_of p = Publishing :: q' -> todo_of q = q' ->
     let (c, x) := cstep (bs_cat s) CStep in x = CUnit /\
     exists ctr' phs', binv (set_todo s c i h (match cs_lock c with Free => q' | _ => Publishing :: q' end)) (tr ++ [(BGo i, BUnit)]) ctr' phs').
  { intros q q' Np Hp Hc W1 W2 Nq Hq Nr Tp Tq.
    destruct (bi_pub _ _ _ _ I _ _ Hin Hp) as (k & Hk).
    pose proof (step_publish veq aeq json parse w m empty (bs_cat s) ctr h k (proj1 CI) Fi Hk) as H.
    destruct (cstep (bs_cat s) CStep) as [c x] eqn:Ec. destruct H as (PI & Gr & Er & Ecs & Hu & _ & Hcl).
    specialize (Hu (bi_closed _ _ _ _ I)). subst x. split; auto.
    assert (Hrun' : crun (csys_new empty) (cops ++ [CStep]) = (c, ctr ++ [(CStep, CUnit)])) by (rewrite (crun_ext _ _ _ _ Hrun), Ec; reflexivity).
    (* what the step does to handles and the lock *)
    assert (Sh : cs_cur c = cs_cur (bs_cat s) /\ (cs_lock c = Free \/ exists k', cs_lock c = Held h k') /\
       (forall h', h' <> h -> get (ts_prods (cs_track c)) h' = get (prods s) h') /\ length (ts_prods (cs_track c)) = length (prods s) /\
       get (ts_prods (cs_track c)) h <> None).
    { cbn [Catalog.cstep] in Ec. rewrite Hk in Ec.
      assert (Ol : forall ops nx, on_last w (bs_cat s) ops nx = (c, CUnit) -> cs_cur c = cs_cur (bs_cat s) /\ cs_lock c = nx /\ cs_track c = cs_track (bs_cat s)).
      { intros ops nx. unfold on_last. destruct (nth_error (cs_groups (bs_cat s)) _) as [gx|]; [|discriminate]. destruct (gsteps w gx ops) as [g' [|]]; [|discriminate].
        intros E. injection E as <-. auto. }
      destruct k; cbn [cpublish] in Ec;
      try (apply Ol in Ec as (E1 & E2 & E3); rewrite E1, E2, E3; conjs; auto; right; eexists; reflexivity).
      - cbn [tstep] in Ec. unfold idle in Ec. destruct (get (prods s) h) as [[|]|] eqn:Eg; try discriminate.
        destruct (append_seq m _); [|discriminate]. injection Ec as <-. cbn. conjs; eauto.
        + intros h' N. apply get_set_ne. auto.
        + apply set_nth_length.
        + rewrite (get_set_eq _ _ _ _ Eg). discriminate.
      - cbn [tstep] in Ec. destruct (get (prods s) h) as [[|n]|] eqn:Eg; try discriminate.
        destruct (track_insert _ _ _) as [[[|] l]|]; try discriminate. injection Ec as <-. cbn. conjs; eauto.
        + intros h' N. apply get_set_ne. auto.
        + apply set_nth_length.
        + rewrite (get_set_eq _ _ _ _ Eg). discriminate. }
    destruct Sh as (Hcur & Hlk & Hoth & Hlen & Hmine).
    assert (Ne : to_publish p = false) by (destruct p; cbn in *; congruence).
    destruct Hlk as [Hf|(k' & Hk')].
    - rewrite Hf, <- Tq, Hst. exists (ctr ++ [(CStep, CUnit)]), (a ++ (h, q) :: b). subst i.
      eapply (binv_move _ _ _ _ _ _ _ _ _ _ _ I); eauto; try (rewrite changes_snoc; cbn; apply app_nil_r).
      + apply reads_quiet. reflexivity.
      + left. rewrite snaps_snoc. apply app_nil_r.
      + right. rewrite publications_snoc, changes_snoc. cbn. rewrite ?app_nil_r. auto.
      + rewrite Hcl. apply (bi_closed _ _ _ _ I).
      + rewrite Hf. discriminate.
      + intros h' k0 N E. rewrite Hk in E. congruence.
      + congruence.
      + intros r k0 E. destruct (Nr _ _ E).
    - rewrite Hk', <- Tp, Hst. exists (ctr ++ [(CStep, CUnit)]), (a ++ (h, p) :: b). subst i.
      eapply (binv_move _ _ _ _ _ _ _ _ _ _ _ I); eauto; try (rewrite changes_snoc; cbn; apply app_nil_r).
      + apply reads_quiet. reflexivity.
      + left. rewrite snaps_snoc. apply app_nil_r.
      + right. rewrite publications_snoc, changes_snoc. cbn. rewrite ?app_nil_r. auto.
      + rewrite Hcl. apply (bi_closed _ _ _ _ I).
      + rewrite Hk'. intros h' k0 E. injection E as <- <-. auto.
      + intros h' k0 N E. rewrite Hk in E. congruence.
      + intros r k0 ->. discriminate. }
  destruct (bi_acct _ _ _ _ I) as (ents & gone & Ac & Ap & Ae & Ag).
  destruct p as [|r k|r k|r k|r k|r k|r k| | |]; cbn [todo_of].
  - (* idle *) apply Stay; auto.
  - (* add *) rewrite Change by (auto; discriminate). destruct (cs_lock (bs_cat s)) as [| |q st] eqn:El; [|congruence|apply Stay; eauto 6].
    apply Moved. change [DoPublish; Spawn r k] with (todo_of (PPub r k)). rewrite Hst. subst i.
    eexists _, _. apply (binv_content _ _ _ _ _ _ _ _ _ I); auto; try discriminate.
    + rewrite Change; auto. discriminate.
    + cbn. intros x E. injection E as <-. eapply Permutation_in; [symmetry; apply Ap|]. apply in_app_iff. right. apply in_app_iff. left.
      eapply Permutation_in; [symmetry; apply pend_at|]. cbn. auto.
    + exists (ents ++ [(r, k)]), gone. rewrite Ac, (apply_add _ _ k). conjs; auto.
      * rewrite Ap, pend_at, pend_at. cbn [waits app]. rewrite <- app_assoc. reflexivity.
      * intros x Hx. apply in_app_iff in Hx as [Hx|[<-|[]]].
        -- destruct (Ae x Hx) as (h' & p' & Hi & Hc). apply in_at in Hi as [E|Hi]; [injection E as -> ->; discriminate|].
           exists h', p'. split; auto. apply in_at. auto.
        -- exists h, (PPub r k). split; auto. apply in_at. auto.
  - (* publish after add *) rewrite Publish by (auto; discriminate). destruct (cs_lock (bs_cat s)) as [| |q st] eqn:El; [|congruence|apply Stay; eauto 6].
    apply Moved. change [Publishing; Spawn r k] with (todo_of (PPubing r k)). rewrite Hst. eexists _, _. apply PubStep; auto; try discriminate.
  - (* publishing *) specialize (PubMore (PSpawn r k) [Spawn r k]).
    destruct (cstep (bs_cat s) CStep) as [c x]. destruct PubMore as [-> H]; auto; try discriminate.
  - (* spawn *)
    assert (Np : PSpawn r k <> PIdle) by discriminate.
    pose proof (handle_free _ _ _ _ h _ I B0 Hin (Gh Np) eq_refl) as Fh.
    pose proof (free_handle_idle _ _ Fh) as Hid.
    cbn [Catalog.cstep]. rewrite Fh. cbn [tstep]. unfold idle. rewrite Hid. apply Moved.
    set (c' := cwith_track (bs_cat s) (twith_prods (cs_track (bs_cat s)) (prods s ++ [Some Idle]))).
    set (n := length (prods s)). rewrite (bi_threads _ _ _ _ I).
    change (Thread h []) with (mk (h, PIdle)). replace (set_nth i) with (@set_nth (thread V A L) (length a)) by (rewrite Li; reflexivity). rewrite (set_at a b h (PSpawn r k) PIdle).
    change [Thread n (cleanup r k)] with (map mk [(n, PWait r k)]). rewrite <- map_app.
    exists (ctr ++ [(CClone h, CUnit)]), ((a ++ (h, PIdle) :: b) ++ [(n, PWait r k)]).
    pose proof (bi_nodup _ _ _ _ I) as Nd.
    assert (As : asked (tr ++ [(@BGo V A L i, @BUnit V A L)]) = asked tr) by (rewrite asked_snoc; apply app_nil_r).
    assert (En : forall k0, has_ended (tr ++ [(@BGo V A L i, @BUnit V A L)]) k0 = has_ended tr k0) by (intros k0; rewrite ended_snoc; apply orb_false_r).
    assert (Hx : In (r, k) (asked tr)) by (eapply (bi_covers _ _ _ _ I); eauto; reflexivity).
    assert (InNew : forall y, In y ((a ++ (h, PIdle) :: b) ++ [(n, PWait r k)]) <-> y = (h, PIdle) \/ y = (n, PWait r k) \/ In y (a ++ b)).
    { intros y. rewrite in_app_iff, in_at. cbn. split; intuition auto. }
    split; cbn [bs_cat bs_threads bs_ended]; rewrite ?As.
    + exists (cops ++ [CClone h]). rewrite (crun_ext _ _ _ _ Hrun). cbn [Catalog.cstep]. rewrite Fh. cbn [tstep]. unfold idle. rewrite Hid. reflexivity.
    + rewrite snaps_snoc, !app_nil_r, app_length. cbn. destruct (bi_snaps _ _ _ _ I). split; auto. lia.
    + rewrite reads_snoc, reader_events_snoc. cbn. rewrite app_nil_r. apply (bi_reads _ _ _ _ I).
    + reflexivity.
    + rewrite map_app. cbn [map fst]. eapply Permutation_NoDup; [apply Permutation_app_comm|]. cbn. constructor; [|eapply nodup_at; eauto].
      intros Hn. apply in_map_iff in Hn as ([h' p'] & E & Hn). cbn in E. subst h'. apply in_at in Hn as [E|Hn].
      * injection E as E _. lia.
      * destruct (bi_handles _ _ _ _ I n p') as [Hl _]; [apply in_at; auto|]. unfold n in Hl. lia.
    + intros h' p' Hn. unfold c'. cbn. rewrite app_length. cbn. apply InNew in Hn as [E|[E|Hn]].
      * injection E as -> ->. split; [lia|congruence].
      * injection E as -> ->. split; [unfold n; lia|]. intros _. rewrite get_app. unfold n. rewrite Nat.eqb_refl. discriminate.
      * destruct (bi_handles _ _ _ _ I h' p') as [Hl Hg]; [apply in_at; auto|]. split; [lia|]. intros N. specialize (Hg N).
        rewrite get_app. destruct (Nat.eqb_spec h' (length (prods s))); [lia|]. auto.
    + apply (bi_closed _ _ _ _ I).
    + cbn. intros q k0 Hq. destruct (bi_lock _ _ _ _ I _ _ Hq) as (q' & Hi & Pq). exists q'. split; auto. apply InNew.
      apply in_at in Hi as [E|Hi]; [injection E as -> ->; discriminate|auto].
    + intros h' p' Hn Pp. apply InNew in Hn as [E|[E|Hn]]; [injection E as -> ->; discriminate..|].
      apply (bi_pub _ _ _ _ I h' p'); auto. apply in_at. auto.
    + intros k0. rewrite En. apply (bi_ended _ _ _ _ I).
    + intros h' r0 k0 Hn. rewrite En. apply InNew in Hn as [E|[E|Hn]]; try discriminate.
      apply (bi_rem _ _ _ _ I h' r0 k0). apply in_at. auto.
    + intros h' p' x Hn Hc. apply InNew in Hn as [E|[E|Hn]]; [injection E as -> ->; discriminate|injection E as -> ->|].
      * cbn in Hc. injection Hc as <-. auto.
      * apply (bi_covers _ _ _ _ I h' p' x); auto. apply in_at. auto.
    + exists ents, gone. split; [exact Ac|]. split; [|split].
      * rewrite Ap. unfold pend. rewrite !flat_map_app. cbn. rewrite !app_nil_r. reflexivity.
      * intros x Hx'. destruct (Ae x Hx') as (h' & p' & Hi & Hc). apply in_at in Hi as [E|Hi].
        -- injection E as -> ->. exists n, (PWait r k). split; [apply InNew; auto|auto].
        -- exists h', p'. split; auto. apply InNew. auto.
      * intros x Hx'. destruct (Ag x Hx') as (y & Hy & Ey & Ry). exists y. rewrite En. auto.
    + rewrite publications_snoc, changes_snoc. cbn. rewrite !app_nil_r.
      destruct (bi_clean _ _ _ _ I) as [H|[H|(h' & p' & Hi & Hp)]]; auto. right; right. exists h', p'. split; auto.
      apply InNew. apply in_at in Hi as [E|Hi]; [injection E as -> ->; discriminate|auto].
    + rewrite changes_snoc. cbn. rewrite app_nil_r. intros E. rewrite (bi_first _ _ _ _ I E). unfold pend. rewrite !flat_map_app. cbn. rewrite !app_nil_r. reflexivity.
  - (* wait *)
    destruct (nth_error (bs_ended s) k) as [[|]|] eqn:Ee.
    + apply Moved. change [DoChange (rem_of r); DoPublish; DropIt] with (todo_of (PRem r k)). rewrite Hst. subst i.
      exists ctr, (a ++ (h, PRem r k) :: b). eapply (binv_move _ _ _ _ _ _ _ _ _ _ _ I); eauto; try (rewrite changes_snoc; cbn; apply app_nil_r).
      * apply (bi_closed _ _ _ _ I).
      * intros _. apply Gh. discriminate.
      * intros h' k0 Hk. right. split; auto. intros ->. destruct (bi_lock _ _ _ _ I _ _ Hk) as (q & Hq & Pq).
        pose proof (bi_nodup _ _ _ _ I) as Nd. apply in_at in Hq as [E|Hq]; [injection E as ->; discriminate|].
        eapply other_handle in Hq; eauto.
      * discriminate.
      * intros r0 k0 E. injection E as <- <-. apply (bi_ended _ _ _ _ I). auto.
    + apply Stay; auto. right. left. exists r, k. split; auto.
      destruct (has_ended tr k) eqn:E; auto. apply (bi_ended _ _ _ _ I) in E. congruence.
    + apply Stay; auto. right. left. exists r, k. split; auto.
      destruct (has_ended tr k) eqn:E; auto. apply (bi_ended _ _ _ _ I) in E. congruence.
  - (* remove *)
    rewrite Change by (auto; discriminate). destruct (cs_lock (bs_cat s)) as [| |q st] eqn:El; [|congruence|apply Stay; eauto 6].
    apply Moved. change [DoPublish; DropIt] with (todo_of PPubD). rewrite Hst. subst i.
    pose proof (bi_rem _ _ _ _ I _ _ _ Hin) as Hend.
    assert (Hx : In (r, k) (asked tr)) by (eapply (bi_covers _ _ _ _ I); eauto; reflexivity).
    assert (Rr : req r r = true) by (apply Rf; apply in_map_iff; exists (r, k); auto).
    eexists _, _. apply (binv_content _ _ _ _ _ _ _ _ _ I); auto; try discriminate.
    + rewrite Change; auto. discriminate.
    + exists (filter (fun x => negb (req (fst x) r)) ents), (filter (fun x => negb (negb (req (fst x) r))) ents ++ gone).
      rewrite Ac, apply_rem. conjs; auto.
      * rewrite Ap, pend_at, pend_at. cbn [waits app]. rewrite (filter_split (fun x => negb (req (fst x) r)) ents) at 1.
        rewrite <- !app_assoc. apply Permutation_app_head. apply Permutation_app_swap_app.
      * intros x Hx'. apply filter_In in Hx' as [Hx' Nx]. destruct (Ae x Hx') as (h' & p' & Hi & Hc).
        apply in_at in Hi as [E|Hi].
        -- injection E as -> ->. cbn in Hc. injection Hc as <-. cbn in Nx. rewrite Rr in Nx. discriminate.
        -- exists h', p'. split; auto. apply in_at. auto.
      * intros x Hx'. apply in_app_iff in Hx' as [Hx'|Hx']; [|auto]. apply filter_In in Hx' as [_ Nx]. rewrite negb_involutive in Nx.
        exists (r, k). auto.
  - (* publish after remove *) rewrite Publish by (auto; discriminate). destruct (cs_lock (bs_cat s)) as [| |q st] eqn:El; [|congruence|apply Stay; eauto 6].
    apply Moved. change [Publishing; DropIt] with (todo_of PPubingD). rewrite Hst. eexists _, _. apply PubStep; auto; try discriminate.
  - specialize (PubMore PDrop [DropIt]).
    destruct (cstep (bs_cat s) CStep) as [c x]. destruct PubMore as [-> H]; auto; try discriminate.
  - (* drop *)
    assert (Np : PDrop <> PIdle) by discriminate.
    pose proof (handle_free _ _ _ _ h _ I B0 Hin (Gh Np) eq_refl) as Fh.
    pose proof (free_handle_idle _ _ Fh) as Hid.
    assert (Ec : cstep (bs_cat s) (CDrop h) = (cwith_track (bs_cat s) (twith_prods (cs_track (bs_cat s)) (set_nth h None (prods s))), CUnit)).
    { cbn [Catalog.cstep]. rewrite Fh. cbn [tstep]. unfold idle. rewrite Hid. reflexivity. }
    rewrite Ec. apply Moved. change [] with (todo_of PIdle) at 1. rewrite Hst. subst i.
    exists (ctr ++ [(CDrop h, CUnit)]), (a ++ (h, PIdle) :: b). eapply (binv_move _ _ _ _ _ _ _ _ _ _ _ I); auto; try (rewrite changes_snoc; cbn; apply app_nil_r).
    + exists (cops ++ [CDrop h]). rewrite (crun_ext _ _ _ _ Hrun), Ec. reflexivity.
    + apply reads_quiet. reflexivity.
    + left. rewrite snaps_snoc. apply app_nil_r.
    + right. rewrite publications_snoc, changes_snoc. cbn. rewrite ?app_nil_r. auto.
    + apply (bi_closed _ _ _ _ I).
    + intros h' N. cbn. apply get_set_ne. auto.
    + cbn. apply set_nth_length.
    + cbn. intros h' k0 Hk. right. split; auto. intros ->. pose proof (free_handle_ne _ _ _ _ Fh Hk). congruence.
    + cbn. intros h' k0 _ Hk. eauto.
    + discriminate.
    + discriminate.
Qed.

(** * The other operations *)
Lemma binv_frame s tr ctr phs c' ctr' ended' e : binv s tr ctr phs ->
  (exists cops, crun (csys_new empty) cops = (c', ctr')) ->
  cs_cur c' = cs_cur (bs_cat s) -> cs_lock c' = cs_lock (bs_cat s) -> ts_prods (cs_track c') = prods s ->
  ts_closed (cs_track c') = ts_closed (cs_track (bs_cat s)) ->
  snaps empty ctr' = snaps empty ctr -> publications [] ctr' = publications [] ctr -> changes ctr' = changes ctr ->
  reads (reader_events (tr ++ [e])) = reads ctr' -> asked [e] = [] ->
  (forall k, nth_error ended' k = Some true <-> has_ended (tr ++ [e]) k = true) ->
  binv (BCSys c' (bs_threads s) ended') (tr ++ [e]) ctr' phs.
Proof.
  intros I Hr Ec El Ep Ecl Es Epu Ech Er Ea Ee.
  assert (As : asked (tr ++ [e]) = asked tr) by (rewrite asked_snoc, Ea; apply app_nil_r).
  assert (En : forall k, has_ended tr k = true -> has_ended (tr ++ [e]) k = true) by (intros k Hk; rewrite ended_snoc, Hk; reflexivity).
  destruct I. split; cbn [bs_cat bs_threads bs_ended]; rewrite ?As, ?Ec, ?El, ?Ep, ?Ecl, ?Es, ?Epu, ?Ech; auto.
  - destruct bi_snaps0. split; auto. rewrite app_length. lia.
  - intros h r k Hin. eauto.
  - destruct bi_acct0 as (ents & gone & H1 & H2 & H3 & H4). exists ents, gone. conjs; auto.
    intros x Hx. destruct (H4 x Hx) as (y & Hy & Ey & Ry). exists y. auto.
Qed.

Definition reader_op (o : cop V A L) : bool := match o with CConsume _ | CTrack _ | CFrame _ | CRClone _ => true | _ => false end.

Lemma reader_op_frame c o c' x : reader_op o = true -> cstep c o = (c', x) ->
  cs_cur c' = cs_cur c /\ cs_lock c' = cs_lock c /\ ts_prods (cs_track c') = ts_prods (cs_track c) /\ ts_closed (cs_track c') = ts_closed (cs_track c).
Proof.
  assert (T : forall o', (exists p, o' = TConsume p) \/ (exists q, o' = TNext q) \/ (exists q, o' = TCClone q) ->
     ts_prods (fst (tstep m (cs_track c) o')) = ts_prods (cs_track c) /\ ts_closed (fst (tstep m (cs_track c) o')) = ts_closed (cs_track c)).
  { intros o' [(q & ->)|[(q & ->)|(q & ->)]]; cbn [tstep].
    - unfold idle. destruct (get (ts_prods (cs_track c)) q) as [[|]|]; auto.
    - destruct (get (ts_cons (cs_track c)) q); auto. destruct (track_next _ _ _ _) as [[]|]; auto.
    - destruct (get (ts_cons (cs_track c)) q); auto. }
  intros Ho Hs. destruct o as [| | | | | |p|r|r|r]; try discriminate; cbn [Catalog.cstep] in Hs.
  - destruct (free_handle c p); [|injection Hs as <- <-; auto].
    specialize (T (TConsume p)). destruct (tstep m (cs_track c) (TConsume p)) as [t y]. cbn in T.
    destruct T as [T1 T2]; eauto. destruct y; injection Hs as <- <-; cbn; auto.
  - destruct (nth_error (cs_readers c) r) as [rd|]; [|injection Hs as <- <-; auto].
    specialize (T (TNext (cr_track rd))). destruct (tstep m (cs_track c) (TNext (cr_track rd))) as [t y]. cbn in T.
    destruct T as [T1 T2]; eauto. destruct y as [| | | | |[[gr|]| | |]|]; try (injection Hs as <- <-; cbn; auto; fail).
    destruct (nth_error _ (g_id gr)) as [g|]; [|injection Hs as <- <-; cbn; auto].
    destruct (gstep w g (GCClone 0)) as [g' y]. injection Hs as <- <-. cbn. auto.
  - destruct (nth_error (cs_readers c) r) as [rd|]; [|injection Hs as <- <-; auto].
    destruct (cr_group rd) as [[j q]|]; [|injection Hs as <- <-; auto].
    destruct (nth_error (cs_groups c) j) as [g|]; [|injection Hs as <- <-; auto].
    destruct (gstep w g (GRead q)) as [g' y]. destruct y as [| | | | | |[[|]| | |]]; injection Hs as <- <-; cbn; auto.
  - destruct (nth_error (cs_readers c) r) as [rd|]; [|injection Hs as <- <-; auto].
    specialize (T (TCClone (cr_track rd))). destruct (tstep m (cs_track c) (TCClone (cr_track rd))) as [t y]. cbn in T.
    destruct T as [T1 T2]; eauto. destruct (cr_group rd) as [[j q]|]; [|injection Hs as <- <-; cbn; auto].
    destruct (nth_error _ j) as [g|]; [|injection Hs as <- <-; auto].
    destruct (gstep w g (GCClone q)) as [g' y']. injection Hs as <- <-; cbn; auto.
Qed.

Lemma binv_reader s tr ctr phs o c' x e : binv s tr ctr phs -> reader_op o = true -> cstep (bs_cat s) o = (c', x) ->
  asked [e] = [] -> (forall k, has_ended [e] k = false) ->
  (forall ls, fold_left read_event (reader_events [e]) ls = read_event ls (o, x)) ->
  binv (BCSys c' (bs_threads s) (bs_ended s)) (tr ++ [e]) (ctr ++ [(o, x)]) phs.
Proof.
  intros I Ho Hs Ea Ee Er. destruct (reader_op_frame _ _ _ _ Ho Hs) as (E1 & E2 & E3 & E4).
  eapply binv_frame; eauto.
  - destruct (bi_run _ _ _ _ I) as (cops & Hr). exists (cops ++ [o]). rewrite (crun_ext _ _ _ _ Hr), Hs. reflexivity.
  - rewrite snaps_snoc. destruct o; try discriminate; apply app_nil_r.
  - rewrite publications_snoc. destruct o; try discriminate; apply app_nil_r.
  - rewrite changes_snoc. destruct o; try discriminate; apply app_nil_r.
  - rewrite reader_events_snoc, reads_snoc. unfold reads at 1. rewrite fold_left_app.
    pose proof (bi_reads _ _ _ _ I) as E. unfold reads at 1 in E. rewrite E. apply Er.
  - intros k. rewrite ended_snoc, Ee, orb_false_r. apply (bi_ended _ _ _ _ I).
Qed.

Definition is_go (o : bcop V A L) : bool := match o with BGo _ => true | _ => false end.

Lemma todo_nil p : todo_of p = [] -> p = PIdle.
Proof. destruct p; cbn; congruence. Qed.
Lemma thread_at s tr ctr phs i h t : binv s tr ctr phs -> nth_error (bs_threads s) i = Some (Thread h t) ->
  exists a b p, phs = a ++ (h, p) :: b /\ length a = i /\ t = todo_of p.
Proof.
  intros I H. rewrite (bi_threads _ _ _ _ I), nth_error_map in H. destruct (nth_error phs i) as [[h0 p]|] eqn:E; [|discriminate].
  injection H as -> <-. destruct (phs_split _ _ _ E) as (a & b & -> & Li). exists a, b, p. auto.
Qed.

Lemma step_other s tr ctr phs o : binv s tr ctr phs -> bounded tr -> is_go o = false ->
  let '(s', x) := bcstep s o in x <> BPanic /\ exists ctr' phs', binv s' (tr ++ [(o, x)]) ctr' phs'.
Proof.
  intros I B Ng.
  assert (Bad : quiet (o, BBad) -> @BBad V A L <> BPanic /\ exists ctr' phs', binv s (tr ++ [(o, BBad)]) ctr' phs').
  { intros Q. split; [discriminate|]. exists ctr, phs. apply binv_quiet; auto. }
  assert (Qb : quiet (o, BBad)) by (destruct o; repeat split; reflexivity).
  specialize (Bad Qb).
  destruct o as [|k|i r k|i|i|i|i|o]; try discriminate; cbn [Catalog.bcstep].
  - (* a new track *) split; [discriminate|]. exists ctr, phs. eapply binv_frame; eauto; try reflexivity.
    + apply (bi_run _ _ _ _ I).
    + rewrite reader_events_snoc. cbn. rewrite app_nil_r. apply (bi_reads _ _ _ _ I).
    + intros k. rewrite ended_snoc, orb_false_r, <- (bi_ended _ _ _ _ I).
      destruct (lt_dec k (length (bs_ended s))) as [Hl|Hl].
      * rewrite nth_error_app1; auto. reflexivity.
      * rewrite nth_error_app2 by lia. replace (nth_error (bs_ended s) k) with (@None bool) by (symmetry; apply nth_error_None; lia).
        destruct (k - length (bs_ended s)) as [|[|]]; cbn; split; discriminate.
  - (* the end of a track *) destruct (nth_error (bs_ended s) k) as [e|] eqn:Ek; [|exact Bad]. split; [discriminate|]. exists ctr, phs.
    eapply binv_frame; eauto; try reflexivity.
    + apply (bi_run _ _ _ _ I).
    + rewrite reader_events_snoc. cbn. rewrite app_nil_r. apply (bi_reads _ _ _ _ I).
    + intros k'. rewrite ended_snoc. cbn. rewrite orb_false_r.
      assert (Lk : k < length (bs_ended s)) by (apply nth_error_Some; congruence).
      destruct (Nat.eqb_spec k' k) as [->|N].
      * rewrite orb_true_r, nth_error_set_eq; auto. tauto.
      * rewrite orb_false_r, nth_error_set_ne; auto. apply (bi_ended _ _ _ _ I).
  - (* add *) destruct (nth_error (bs_threads s) i) as [[h [|ac t]]|] eqn:Et; [|exact Bad..].
    destruct (nth_error (bs_ended s) k) as [e|] eqn:Ek; [|exact Bad].
    destruct (free_handle (bs_cat s) h) eqn:Fh; [|exact Bad].
    destruct (thread_at _ _ _ _ _ _ _ I Et) as (a & b & p & -> & Li & Tp). symmetry in Tp. apply todo_nil in Tp. subst p.
    split; [discriminate|]. unfold set_todo. rewrite (bi_threads _ _ _ _ I), <- Li.
    change (Thread h (add_call r k)) with (mk (h, PAdd r k)). rewrite (set_at a b h PIdle (PAdd r k)).
    exists ctr, (a ++ (h, PAdd r k) :: b). pose proof (bi_nodup _ _ _ _ I) as Nd.
    assert (Ea : forall tr', asked (tr' ++ [(@BAdd V A L (length a) r k, @BUnit V A L)]) = asked tr' ++ [(r, k)]) by (intros; apply asked_snoc).
    assert (En : forall k0, has_ended (tr ++ [(@BAdd V A L (length a) r k, @BUnit V A L)]) k0 = has_ended tr k0) by (intros k0; rewrite ended_snoc; apply orb_false_r).
    destruct (bi_acct _ _ _ _ I) as (ents & gone & Ac & Ap & Ae & Ag).
    split; cbn [bs_cat bs_threads bs_ended].
    + apply (bi_run _ _ _ _ I).
    + destruct (bi_snaps _ _ _ _ I) as [F Ln]. rewrite Ea, map_app, app_length. split; [|cbn; lia].
      eapply Forall_impl; [|exact F]. intros c. apply sub_app.
    + rewrite reader_events_snoc. cbn. rewrite app_nil_r. apply (bi_reads _ _ _ _ I).
    + reflexivity.
    + eapply nodup_at; eauto.
    + intros h' p' Hin. apply in_at in Hin as [E|Hin].
      * injection E as -> ->. destruct (bi_handles _ _ _ _ I h PIdle) as [Hl _]; [apply in_at; auto|]. split; auto. intros _.
        rewrite (free_handle_idle _ _ Fh). discriminate.
      * apply (bi_handles _ _ _ _ I h' p'). apply in_at. auto.
    + apply (bi_closed _ _ _ _ I).
    + intros q k0 Hk. destruct (bi_lock _ _ _ _ I _ _ Hk) as (q' & Hi & Pq). exists q'. split; auto.
      apply in_at in Hi as [E|Hi]; [injection E as -> ->; discriminate|]. apply in_at. auto.
    + intros h' p' Hin Pp. apply in_at in Hin as [E|Hin]; [injection E as -> ->; discriminate|].
      apply (bi_pub _ _ _ _ I h' p'); auto. apply in_at; auto.
    + intros k0. rewrite En. apply (bi_ended _ _ _ _ I).
    + intros h' r0 k0 Hin. rewrite En. apply in_at in Hin as [E|Hin]; [discriminate|].
      apply (bi_rem _ _ _ _ I h' r0 k0). apply in_at. auto.
    + intros h' p' x Hin Hc. rewrite Ea. apply in_app_iff. left. apply in_at in Hin as [E|Hin]; [injection E as -> ->; discriminate|].
      apply (bi_covers _ _ _ _ I h' p' x); auto. apply in_at. auto.
    + exists ents, gone. split; [exact Ac|]. split; [|split].
      * rewrite Ea, Ap, pend_at, pend_at. cbn [waits app]. rewrite <- Permutation_app_comm. cbn [app].
        rewrite Permutation_middle. reflexivity.
      * intros x Hx. destruct (Ae x Hx) as (h' & p' & Hi & Hc). apply in_at in Hi as [E|Hi]; [injection E as -> ->; discriminate|].
        exists h', p'. split; auto. apply in_at. auto.
      * intros x Hx. destruct (Ag x Hx) as (y & Hy & Ey & Ry). exists y. rewrite En, Ea. conjs; auto. apply in_app_iff. auto.
    + destruct (bi_clean _ _ _ _ I) as [H|[H|(h' & p' & Hi & Hp)]]; auto. right; right.
      apply in_at in Hi as [E|Hi]; [injection E as -> ->; discriminate|]. exists h', p'. split; auto. apply in_at. auto.
    + intros E. rewrite Ea, (bi_first _ _ _ _ I E), pend_at, pend_at. cbn [waits app]. rewrite <- Permutation_app_comm. reflexivity.
  - (* clone *) destruct (nth_error (bs_threads s) i) as [[h [|ac t]]|] eqn:Et; [|exact Bad..].
    destruct (bi_run _ _ _ _ I) as (cops & Hrun).
    cbn [Catalog.cstep]. destruct (free_handle (bs_cat s) h) eqn:Fh; [|exact Bad].
    pose proof (free_handle_idle _ _ Fh) as Hid. cbn [tstep]. unfold idle. rewrite Hid. split; [discriminate|].
    set (n := length (prods s)). rewrite (bi_threads _ _ _ _ I). change [Thread n []] with (map mk [(n, PIdle)]). rewrite <- map_app.
    exists (ctr ++ [(CClone h, CUnit)]), (phs ++ [(n, PIdle)]).
    assert (As : asked (tr ++ [(@BClone V A L i, @BUnit V A L)]) = asked tr) by (rewrite asked_snoc; apply app_nil_r).
    assert (En : forall k0, has_ended (tr ++ [(@BClone V A L i, @BUnit V A L)]) k0 = has_ended tr k0) by (intros k0; rewrite ended_snoc; apply orb_false_r).
    assert (InNew : forall y, In y (phs ++ [(n, PIdle)]) <-> y = (n, PIdle) \/ In y phs).
    { intros y. rewrite in_app_iff. cbn. split; intuition auto. }
    destruct (bi_acct _ _ _ _ I) as (ents & gone & Ac & Ap & Ae & Ag).
    split; cbn [bs_cat bs_threads bs_ended]; rewrite ?As.
    + exists (cops ++ [CClone h]). rewrite (crun_ext _ _ _ _ Hrun). cbn [Catalog.cstep]. rewrite Fh. cbn [tstep]. unfold idle. rewrite Hid. reflexivity.
    + rewrite snaps_snoc, !app_nil_r, app_length. cbn. destruct (bi_snaps _ _ _ _ I). split; auto. lia.
    + rewrite reads_snoc, reader_events_snoc. cbn. rewrite app_nil_r. apply (bi_reads _ _ _ _ I).
    + reflexivity.
    + rewrite map_app. cbn [map fst]. eapply Permutation_NoDup; [apply Permutation_app_comm|]. cbn. constructor; [|apply (bi_nodup _ _ _ _ I)].
      intros Hn. apply in_map_iff in Hn as ([h' p'] & E & Hn). cbn in E. subst h'.
      destruct (bi_handles _ _ _ _ I n p' Hn) as [Hl _]. unfold n in Hl. lia.
    + intros h' p' Hn. cbn. rewrite app_length. cbn. apply InNew in Hn as [E|Hn].
      * injection E as -> ->. split; [unfold n; lia|congruence].
      * destruct (bi_handles _ _ _ _ I h' p' Hn) as [Hl Hg]. split; [lia|]. intros N. specialize (Hg N).
        rewrite get_app. destruct (Nat.eqb_spec h' (length (prods s))); [lia|]. auto.
    + apply (bi_closed _ _ _ _ I).
    + cbn. intros q k0 Hq. destruct (bi_lock _ _ _ _ I _ _ Hq) as (q' & Hi & Pq). exists q'. split; auto. apply InNew. auto.
    + intros h' p' Hn Pp. apply InNew in Hn as [E|Hn]; [injection E as -> ->; discriminate|]. apply (bi_pub _ _ _ _ I h' p'); auto.
    + intros k0. rewrite En. apply (bi_ended _ _ _ _ I).
    + intros h' r0 k0 Hn. rewrite En. apply InNew in Hn as [E|Hn]; [discriminate|]. apply (bi_rem _ _ _ _ I h' r0 k0). auto.
    + intros h' p' x Hn Hc. apply InNew in Hn as [E|Hn]; [injection E as -> ->; discriminate|]. apply (bi_covers _ _ _ _ I h' p' x); auto.
    + exists ents, gone. split; [exact Ac|]. split; [|split].
      * rewrite Ap. unfold pend. rewrite !flat_map_app. cbn. rewrite !app_nil_r. reflexivity.
      * intros x Hx'. destruct (Ae x Hx') as (h' & p' & Hi & Hc). exists h', p'. split; auto. apply InNew. auto.
      * intros x Hx'. destruct (Ag x Hx') as (y & Hy & Ey & Ry). exists y. rewrite En. auto.
    + rewrite publications_snoc, changes_snoc. cbn. rewrite !app_nil_r.
      destruct (bi_clean _ _ _ _ I) as [H|[H|(h' & p' & Hi & Hp)]]; auto. right; right. exists h', p'. split; auto. apply InNew. auto.
    + rewrite changes_snoc. cbn. rewrite app_nil_r. intros E. rewrite (bi_first _ _ _ _ I E). unfold pend. rewrite !flat_map_app. cbn. rewrite !app_nil_r. reflexivity.
  - (* drop *) destruct (nth_error (bs_threads s) i) as [[h [|ac t]]|] eqn:Et; [|exact Bad..].
    destruct (bi_run _ _ _ _ I) as (cops & Hrun).
    destruct (free_handle (bs_cat s) h) eqn:Fh; [|cbn [Catalog.cstep]; rewrite Fh; exact Bad].
    pose proof (free_handle_idle _ _ Fh) as Hid.
    assert (Ec : cstep (bs_cat s) (CDrop h) = (cwith_track (bs_cat s) (twith_prods (cs_track (bs_cat s)) (set_nth h None (prods s))), CUnit)).
    { cbn [Catalog.cstep]. rewrite Fh. cbn [tstep]. unfold idle. rewrite Hid. reflexivity. }
    rewrite Ec. split; [discriminate|].
    destruct (thread_at _ _ _ _ _ _ _ I Et) as (a & b & p & -> & Li & Tp). symmetry in Tp. apply todo_nil in Tp. subst p.
    unfold set_todo. rewrite (bi_threads _ _ _ _ I), <- Li.
    change (Thread h []) with (mk (h, PIdle)). rewrite (set_at a b h PIdle PIdle).
    exists (ctr ++ [(CDrop h, CUnit)]), (a ++ (h, PIdle) :: b).
    eapply (binv_move _ _ _ _ _ _ PIdle PIdle _ _ _ I); auto; try (rewrite changes_snoc; cbn; apply app_nil_r).
    + exists (cops ++ [CDrop h]). rewrite (crun_ext _ _ _ _ Hrun), Ec. reflexivity.
    + apply reads_quiet. reflexivity.
    + left. rewrite snaps_snoc. apply app_nil_r.
    + right. rewrite publications_snoc, changes_snoc. cbn. rewrite ?app_nil_r. auto.
    + apply (bi_closed _ _ _ _ I).
    + intros h' N. cbn. apply get_set_ne. auto.
    + cbn. apply set_nth_length.
    + cbn. intros h' k0 Hk. right. split; auto. intros ->. pose proof (free_handle_ne _ _ _ _ Fh Hk). congruence.
    + cbn. intros h' k0 _ Hk. eauto.
    + discriminate.
    + discriminate.
  - (* consume *) destruct (nth_error (bs_threads s) i) as [[h [|ac t]]|] eqn:Et; [|exact Bad..].
    destruct (cstep (bs_cat s) (CConsume h)) as [c' x] eqn:Ec. split; [discriminate|].
    exists (ctr ++ [(CConsume h, x)]), phs. eapply binv_reader; eauto; try reflexivity.
  - (* read *) destruct (reader_op o) eqn:Ho; [|destruct o; try discriminate; exact Bad].
    destruct o; try discriminate; try exact Bad; cbn [Catalog.bcstep].
    all: match goal with |- context [cstep ?c ?o] => destruct (cstep c o) as [c' x] eqn:Ec end; split; [discriminate|].
    all: eexists _, phs; eapply binv_reader; eauto; reflexivity.
Qed.

(** * All executions *)
Lemma bcrun_app s ops o : bcrun s (ops ++ [o]) = let (s1, tr) := bcrun s ops in let (s2, x) := bcstep s1 o in (s2, tr ++ [(o, x)]).
Proof.
  revert s. induction ops as [|o1 ops IH]; intros s; cbn [app Catalog.bcrun].
  - destruct (bcstep s o); reflexivity.
  - destruct (bcstep s o1) as [s1 x1]. rewrite IH. destruct (bcrun s1 ops) as [s2 tr]. destruct (bcstep s2 o). reflexivity.
Qed.

Lemma binv_run ops : forall s tr, bcrun bcsys_new ops = (s, tr) -> bounded tr -> refl_on (map fst (asked tr)) ->
  (forall o, ~ In (o, BPanic) tr) /\ exists ctr phs, binv s tr ctr phs.
Proof.
  induction ops as [|o ops IH] using rev_ind; intros s tr.
  - cbn. intros E. injection E as <- <-. intros _ _. split; [tauto|]. exists [], [(0, PIdle)]. apply binv_new.
  - rewrite bcrun_app. destruct (bcrun bcsys_new ops) as [s1 tr1]. destruct (bcstep s1 o) as [s2 x] eqn:Es.
    intros E. injection E as <- <-. intros B Rf. pose proof (bounded_snoc _ _ B) as B1.
    assert (R1 : refl_on (map fst (asked tr1))).
    { intros r Hr. apply Rf. rewrite asked_snoc, map_app. apply in_app_iff. auto. }
    destruct (IH _ _ eq_refl B1 R1) as (Np & ctr & phs & I).
    assert (x <> BPanic /\ exists ctr' phs', binv s2 (tr1 ++ [(o, x)]) ctr' phs') as [Nx Hb].
    { destruct (is_go o) eqn:Eo.
      - destruct o as [|k|i r k|i|i|i|i|o]; try discriminate.
        assert (B2 : bounded (tr1 ++ [(BGo i, BUnit)])).
        { destruct B as [S Ln]. split.
          - intros c Hc. apply S. rewrite asked_snoc in *. auto.
          - rewrite app_length in *. auto. }
        pose proof (step_go _ _ _ _ i I B2 R1) as H. rewrite Es in H. destruct H as (H1 & ctr' & phs' & H2 & _). eauto.
      - pose proof (step_other _ _ _ _ o I B1 Eo) as H. rewrite Es in H. auto. }
    split; auto. intros o' Hin. apply in_app_iff in Hin as [Hin|[Hin|[]]].
    + eapply Np; eauto.
    + injection Hin as _ ->. congruence.
Qed.

(** * At rest *)
Notation settled := (settled veq aeq json w parse m).

Lemma settled_phases s tr ctr phs : binv s tr ctr phs -> bounded tr -> settled s ->
  cs_lock (bs_cat s) = Free /\ forall h p, In (h, p) phs -> p = PIdle \/ exists r k, p = PWait r k /\ has_ended tr k = false.
Proof.
  intros I B S.
  assert (Lf : cs_lock (bs_cat s) = Free).
  { destruct (cs_lock (bs_cat s)) as [| |q k] eqn:El; auto; [destruct (binv_not_bad _ _ _ _ I B El)|]. exfalso.
    destruct (bi_lock _ _ _ _ I _ _ El) as (ph & Hin & Pp). apply In_nth_error in Hin as (i & Hi).
    specialize (S i). cbn [Catalog.bcstep] in S. rewrite (bi_threads _ _ _ _ I), nth_error_map, Hi in S. cbn [option_map] in S. unfold mk in S.
    cbn [fst snd] in S. destruct ph; try discriminate; cbn [todo_of] in S; destruct (cstep (bs_cat s) CStep) as [c x]; destruct x; destruct S; discriminate. }
  split; auto. intros h p Hin. pose proof Hin as Hn. apply In_nth_error in Hn as (i & Hi).
  specialize (S i). cbn [Catalog.bcstep] in S. rewrite (bi_threads _ _ _ _ I), nth_error_map, Hi in S. cbn [option_map] in S. unfold mk in S.
  cbn [fst snd] in S. 
  assert (Hf : p <> PIdle -> publishing p = false -> free_handle (bs_cat s) h = true).
  { intros N Pp. eapply handle_free; eauto. apply (bi_handles _ _ _ _ I h p); auto. }
  destruct p as [|r k|r k|r k|r k|r k|r k| | |]; auto; cbn [todo_of] in S.
  - cbn [Catalog.cstep] in S. rewrite Hf, Lf in S by (auto; discriminate). destruct S; discriminate.
  - cbn [Catalog.cstep] in S. rewrite Hf, Lf in S by (auto; discriminate). destruct S; discriminate.
  - destruct (cstep (bs_cat s) CStep) as [c x]; destruct x; destruct S; discriminate.
  - destruct (cstep (bs_cat s) (CClone h)) as [c x]; destruct x; destruct S; discriminate.
  - right. exists r, k. split; auto. destruct (has_ended tr k) eqn:E; auto. apply (bi_ended _ _ _ _ I) in E. rewrite E in S. destruct S; discriminate.
  - cbn [Catalog.cstep] in S. rewrite Hf, Lf in S by (auto; discriminate). destruct S; discriminate.
  - cbn [Catalog.cstep] in S. rewrite Hf, Lf in S by (auto; discriminate). destruct S; discriminate.
  - destruct (cstep (bs_cat s) CStep) as [c x]; destruct x; destruct S; discriminate.
  - destruct (cstep (bs_cat s) (CDrop h)) as [c x]; destruct x; destruct S; discriminate.
Qed.

Notation lists_live := (lists_live veq aeq).
Lemma nodup_fst {B C} (l : list (B * C)) x y : NoDup (map fst l) -> In x l -> In y l -> fst x = fst y -> x = y.
Proof.
  induction l as [|z l IH]; cbn; [tauto|]. intros Nd Hx Hy E. inversion Nd as [|? ? H1 H2]; subst.
  destruct Hx as [->|Hx], Hy as [->|Hy]; auto.
  - destruct H1. rewrite E. apply in_map. auto.
  - destruct H1. rewrite <- E. apply in_map. auto.
Qed.

Lemma settled_content s tr ctr phs : binv s tr ctr phs -> bounded tr -> settled s ->
  lists_live tr (cs_cur (bs_cat s)) /\
  (told_apart veq aeq (map fst (asked tr)) -> Permutation (renditions (cs_cur (bs_cat s))) (live_renditions tr)).
Proof.
  intros I B S. destruct (settled_phases _ _ _ _ I B S) as [Lf Ph].
  destruct (bi_acct _ _ _ _ I) as (ents & gone & Ac & Ap & Ae & Ag).
  assert (Pn : pend phs = []).
  { unfold pend. clear -Ph. induction phs as [|[h p] phs IH]; cbn; auto. rewrite IH by (intros; eapply Ph; right; eauto).
    destruct (Ph h p) as [->|(r & k & -> & _)]; cbn; auto. }
  rewrite Pn in Ap. cbn [app] in Ap.
  assert (El : forall x, In x ents -> has_ended tr (snd x) = false).
  { intros x Hx. destruct (Ae x Hx) as (h & p & Hin & Hc). destruct (Ph _ _ Hin) as [->|(r & k & -> & E)]; [discriminate|].
    cbn in Hc. injection Hc as <-. auto. }
  rewrite Ac. split; [split; [|split]|].
  - reflexivity.
  - intros x Hx. eapply Permutation_in in Hx; [|apply renditions_of]. apply in_map_iff in Hx as (y & <- & Hy).
    unfold live_renditions. apply in_map. apply filter_In. split; [|rewrite El; auto].
    eapply Permutation_in; [symmetry; apply Ap|]. apply in_app_iff. auto.
  - intros x k Hin Hk Hne. eapply Permutation_in in Hin; [|apply Ap]. apply in_app_iff in Hin as [Hin|Hin].
    + eapply Permutation_in; [symmetry; apply renditions_of|]. apply in_map_iff. exists (x, k). auto.
    + destruct (Ag _ Hin) as ([y k'] & Hy & Ey & Ry). cbn in *. rewrite (Hne _ _ Hy Ey) in Ry. discriminate.
  - intros [Nd Eq]. rewrite renditions_of. unfold live_renditions. apply Permutation_map.
    assert (Eg : forall x, In x gone -> has_ended tr (snd x) = true).
    { intros x Hx. destruct (Ag x Hx) as (y & Hy & Ey & Ry).
      assert (Hx' : In x (asked tr)) by (eapply Permutation_in; [symmetry; apply Ap|]; apply in_app_iff; auto).
      apply Eq in Ry; [|apply in_map; auto..]. rewrite (nodup_fst _ _ _ Nd Hx' Hy Ry). auto. }
    assert (F : forall l l' : list (rendition * nat), Permutation l l' -> forall f, Permutation (filter f l) (filter f l')).
    { intros l l' Hp f. induction Hp; cbn; auto.
      - destruct (f x); auto.
      - destruct (f x), (f y); auto. constructor.
      - etransitivity; eauto. }
    rewrite (F _ _ Ap), filter_app.
    replace (filter _ ents) with ents; [replace (filter _ gone) with (@nil (rendition * nat)); [rewrite app_nil_r; auto|]|].
    + clear -Eg. induction gone as [|x l IH]; cbn; auto. rewrite Eg by (cbn; auto). cbn. apply IH. intros; apply Eg; cbn; auto.
    + clear -El. induction ents as [|x l IH]; cbn; auto. rewrite El by (cbn; auto). cbn. f_equal. apply IH. intros; apply El; cbn; auto.
Qed.

Lemma pubs_bounded s tr ctr phs : binv s tr ctr phs -> bounded tr -> in_bounds veq aeq json w empty ctr.
Proof.
  intros I B. destruct (binv_fits _ _ _ _ I B) as [F Ln]. split.
  - intros ds c Hd D. pose proof (describes_unique veq aeq _ _ _ _ D (cat_of_describes veq aeq empty ds)) as ->.
    rewrite Forall_forall in F. apply F. apply in_map. auto.
  - unfold snaps in Ln. rewrite map_length in Ln. auto.
Qed.

Theorem task_reader ops s tr r l : bcrun bcsys_new ops = (s, tr) -> bounded tr -> refl_on (map fst (asked tr)) -> settled s ->
  nth_error (reads (reader_events tr)) r = Some l ->
  snd (bcstep s (BRead (CTrack r))) = BOut CPend ->
  (snd (bcstep s (BRead (CFrame r))) = BOut CPend \/ snd (bcstep s (BRead (CFrame r))) = BOut CNothing) ->
  (asked tr = [] /\ l = []) \/
  exists l0 c, l = l0 ++ [parse (json c)] /\ lists_live tr c /\
    (told_apart veq aeq (map fst (asked tr)) -> Permutation (renditions c) (live_renditions tr)).
Proof.
  intros Hr B Rf S Hl Ht Hf. destruct (binv_run _ _ _ Hr B Rf) as (_ & ctr & phs & I).
  destruct (settled_phases _ _ _ _ I B S) as [Lf Ph]. pose proof (settled_content _ _ _ _ I B S) as Hc.
  pose proof (binv_cinv _ _ _ _ I B) as [[C _ _] _].
  destruct (bi_run _ _ _ _ I) as (cops & Hrun).
  cbn [Catalog.bcstep] in Ht, Hf.
  assert (H : match rev (publications [] ctr) with
              | [] => l = []
              | ds :: _ => exists l0 c, l = l0 ++ [parse (json c)] /\ describes veq aeq empty ds c
              end).
  { eapply (catalog_latest veq aeq json parse w m empty cops (bs_cat s) ctr r); eauto.
    - eapply pubs_bounded; eauto.
    - cbn [Catalog.cstep]. rewrite Lf. reflexivity.
    - destruct (cstep (bs_cat s) (CTrack r)). cbn in *. congruence.
    - destruct (cstep (bs_cat s) (CFrame r)). cbn in *. destruct Hf; [left|right]; congruence.
    - rewrite <- (bi_reads _ _ _ _ I). auto. }
  destruct (bi_clean _ _ _ _ I) as [(pre & E)|[[E1 E2]|(h & p & Hin & Hp)]].
  - right. rewrite E, rev_app_distr in H. cbn in H. destruct H as (l0 & c & -> & D).
    pose proof (describes_unique veq aeq _ _ _ _ D (cat_of_describes veq aeq empty (changes ctr))) as ->.
    rewrite <- C in *. eauto.
  - left. rewrite E2 in H. cbn in H. split; auto. apply Permutation_nil. symmetry. rewrite (bi_first _ _ _ _ I E1).
    unfold pend. clear -Ph. induction phs as [|[h p] phs IH]; cbn; auto. rewrite IH by (intros; eapply Ph; right; eauto).
    destruct (Ph h p) as [->|(r & k & -> & _)]; cbn; auto.
  - destruct (Ph _ _ Hin) as [->|(r0 & k & -> & _)]; discriminate.
Qed.

(** While a track is live its catalog does not end. *)
Theorem task_open ops s tr r : bcrun bcsys_new ops = (s, tr) -> bounded tr -> told_apart veq aeq (map fst (asked tr)) ->
  live_renditions tr <> [] ->
  snd (bcstep s (BRead (CTrack r))) <> BOut CEnd /\ forall e, snd (bcstep s (BRead (CTrack r))) <> BOut (CErr e).
Proof.
  intros Hr B [Nd Eq] Hl.
  assert (Rf : refl_on (map fst (asked tr))) by (intros x Hx; apply Eq; auto).
  destruct (binv_run _ _ _ Hr B Rf) as (_ & ctr & phs & I).
  destruct (bi_acct _ _ _ _ I) as (ents & gone & Ac & Ap & Ae & Ag).
  assert (Ha : tsys_alive (cs_track (bs_cat s)) = true).
  { assert (exists h p, In (h, p) phs /\ p <> PIdle) as (h & p & Hin & Np).
    { unfold live_renditions in Hl. destruct (filter _ (asked tr)) as [|x l] eqn:Ef; [cbn in Hl; tauto|].
      assert (Hx : In x (filter (fun x => negb (has_ended tr (snd x))) (asked tr))) by (rewrite Ef; cbn; auto).
      apply filter_In in Hx as [Hx Ex]. apply negb_true_iff in Ex. pose proof Hx as Hin.
      eapply Permutation_in in Hin; [|apply Ap]. apply in_app_iff in Hin as [Hin|Hin]; [|apply in_app_iff in Hin as [Hin|Hin]].
      - destruct (Ae x Hin) as (h & p & Hp & Hc). exists h, p. split; auto. intros ->. discriminate.
      - unfold pend in Hin. apply in_flat_map in Hin as ([h p] & Hp & Hw). exists h, p. split; auto. intros ->. destruct Hw.
      - exfalso. destruct (Ag x Hin) as (y & Hy & Ey & Ry). apply Eq in Ry; [|apply in_map; auto..].
        rewrite (nodup_fst _ _ _ Nd Hx Hy Ry) in Ex. congruence. }
    destruct (bi_handles _ _ _ _ I _ _ Hin) as [_ Hg]. specialize (Hg Np). unfold tsys_alive. apply orb_true_iff. left.
    destruct (live (prods s)) eqn:E; auto. apply (live_false_get _ h) in E. congruence. }
  cbn [Catalog.bcstep]. destruct (cstep (bs_cat s) (CTrack r)) as [c x] eqn:Ec. cbn [snd].
  assert (x <> CEnd /\ forall e, x <> CErr e) as [N1 N2]; [|split; [congruence|intros e E; apply (N2 e); congruence]].
  cbn [Catalog.cstep] in Ec. destruct (nth_error (cs_readers (bs_cat s)) r) as [rd|]; [|injection Ec as <- <-; split; discriminate].
  cbn [tstep] in Ec. destruct (get (ts_cons _) (cr_track rd)) as [prev|]; [|injection Ec as <- <-; split; discriminate].
  unfold track_next in Ec. rewrite (bi_closed _ _ _ _ I), orb_false_r, Ha in Ec.
  destruct (opt_gt _ _).
  - destruct (ts_latest (cs_track (bs_cat s))) as [gr|]; [|injection Ec as <- <-; split; discriminate].
    destruct (nth_error _ (g_id gr)) as [g|]; [|injection Ec as <- <-; split; discriminate].
    destruct (gstep w g (GCClone 0)). injection Ec as <- <-. split; discriminate.
  - injection Ec as <- <-. split; discriminate.
Qed.

(** * Progress *)
Definition aweight (a : act V A L) : nat :=
  match a with DoChange _ => 1 | DoPublish => 8 | Publishing => 1 | Spawn _ _ => 12 | Wait _ => 1 | DropIt => 1 end.
Definition tweight (t : thread V A L) : nat := list_sum (map aweight (th_todo t)).
Definition left_over (l : lock) : nat :=
  match l with
  | Held _ PAppend1 => 6 | Held _ PAppend2 => 5 | Held _ PCreate => 4 | Held _ PWrite => 3 | Held _ PFrameEnd => 2 | Held _ PGroupEnd => 1
  | _ => 0
  end.
Definition work (s : bcsys V A L) : nat := list_sum (map tweight (bs_threads s)) + left_over (cs_lock (bs_cat s)).

Lemma sum_set i (t t' : thread V A L) l : nth_error l i = Some t ->
  list_sum (map tweight (set_nth i t' l)) + tweight t = list_sum (map tweight l) + tweight t'.
Proof.
  revert i. induction l as [|x l IH]; intros [|i]; cbn [nth_error]; try discriminate.
  - intros E. injection E as ->. unfold list_sum. cbn [set_nth map fold_right]. lia.
  - intros E. apply IH in E. unfold list_sum in *. cbn [set_nth map fold_right]. lia.
Qed.

Lemma go_works s i s' : bcstep s (BGo i) = (s', BUnit) -> work s' < work s.
Proof.
  cbn [Catalog.bcstep]. destruct (nth_error (bs_threads s) i) as [[h [|a todo]]|] eqn:Et; try discriminate.
  assert (Set_ : forall c todo', work (set_todo s c i h todo') + list_sum (map aweight (a :: todo)) + left_over (cs_lock (bs_cat s)) =
     work s + list_sum (map aweight todo') + left_over (cs_lock c)).
  { intros c todo'. unfold work, set_todo. cbn [bs_threads bs_cat]. pose proof (sum_set i _ (Thread h todo') _ Et) as H.
    unfold tweight at 2 4 in H. cbn [th_todo] in H. lia. }
  destruct a as [d| | |r k|k|].
  - destruct (cstep (bs_cat s) (CChange h d)) as [c x] eqn:Ec. destruct x; try discriminate. intros E. injection E as <-.
    specialize (Set_ c todo). cbn [map list_sum aweight fold_right] in Set_.
    cbn [Catalog.cstep] in Ec. destruct (free_handle _ _); [|discriminate]. destruct (cs_lock (bs_cat s)) eqn:El; try discriminate.
    injection Ec as <-. cbn [cs_lock cwith_cur] in Set_. rewrite El in Set_. unfold list_sum in *. lia.
  - destruct (cstep (bs_cat s) (CPublish h)) as [c x] eqn:Ec. destruct x; try discriminate. intros E. injection E as <-.
    specialize (Set_ c (Publishing :: todo)).
    cbn [Catalog.cstep] in Ec. destruct (free_handle _ _); [|discriminate]. destruct (cs_lock (bs_cat s)) eqn:El; try discriminate.
    injection Ec as <-. cbn -[work set_todo] in Set_ |- *. unfold list_sum in *. lia.
  - destruct (cstep (bs_cat s) CStep) as [c x] eqn:Ec. destruct x; try discriminate. intros E. injection E as <-.
    specialize (Set_ c (match cs_lock c with Free => todo | _ => Publishing :: todo end)).
    cbn [Catalog.cstep] in Ec. destruct (cs_lock (bs_cat s)) as [| |p k] eqn:El; try discriminate.
    assert (Ol : forall ops nx, on_last w (bs_cat s) ops nx = (c, CUnit) -> cs_lock c = nx).
    { intros ops nx. unfold on_last. destruct (nth_error (cs_groups (bs_cat s)) _) as [gx|]; [|discriminate]. destruct (gsteps w gx ops) as [g' [|]]; [|discriminate].
      intros E. injection E as <-. auto. }
    destruct k; cbn [cpublish] in Ec;
      try (apply Ol in Ec; rewrite Ec in *; cbn -[work set_todo] in Set_ |- *; unfold list_sum in *; lia).
    + destruct (tstep m _ _) as [t y]. destruct y; try discriminate; injection Ec as <-; cbn -[work set_todo] in Set_ |- *; unfold list_sum in *; lia.
    + destruct (tstep m _ _) as [t y]. destruct y; try discriminate; injection Ec as <-; cbn -[work set_todo] in Set_ |- *; unfold list_sum in *; lia.
  - destruct (cstep (bs_cat s) (CClone h)) as [c x] eqn:Ec. destruct x; try discriminate. intros E. injection E as <-.
    specialize (Set_ c todo). cbn [Catalog.cstep] in Ec. destruct (free_handle _ _); [|discriminate].
    destruct (tstep m _ _) as [t y]. destruct y; try discriminate; injection Ec as <-.
    unfold work, set_todo in *. cbn [bs_threads bs_cat cs_lock cwith_track] in *. rewrite map_app, list_sum_app. cbn in *. unfold list_sum in *. lia.
  - destruct (nth_error (bs_ended s) k) as [[|]|]; try discriminate. intros E. injection E as <-.
    specialize (Set_ (bs_cat s) todo). cbn -[work set_todo] in Set_ |- *. unfold list_sum in *. lia.
  - destruct (cstep (bs_cat s) (CDrop h)) as [c x] eqn:Ec. destruct x; try discriminate. intros E. injection E as <-.
    specialize (Set_ c todo). cbn [Catalog.cstep] in Ec. destruct (free_handle _ _); [|discriminate].
    destruct (tstep m _ _) as [t y]. destruct y; try discriminate; injection Ec as <-.
    cbn -[work set_todo] in Set_ |- *. unfold list_sum in *. lia.
Qed.

Lemma go_waits s i s' x : bcstep s (BGo i) = (s', x) -> x = BBad \/ x = BWait -> s' = s.
Proof.
  cbn [Catalog.bcstep]. destruct (nth_error (bs_threads s) i) as [[h [|a todo]]|]; try (intros E; injection E as <- <-; auto; fail).
  destruct a as [d| | |r k|k|].
  - destruct (cstep (bs_cat s) (CChange h d)) as [c y]; destruct y; intros E; injection E as <- <-; intros [H|H]; auto; discriminate.
  - destruct (cstep (bs_cat s) (CPublish h)) as [c y]; destruct y; intros E; injection E as <- <-; intros [H|H]; auto; discriminate.
  - destruct (cstep (bs_cat s) CStep) as [c y]; destruct y; intros E; injection E as <- <-; intros [H|H]; auto; discriminate.
  - destruct (cstep (bs_cat s) (CClone h)) as [c y]; destruct y; intros E; injection E as <- <-; intros [H|H]; auto; discriminate.
  - destruct (nth_error (bs_ended s) k) as [[|]|]; intros E; injection E as <- <-; intros [H|H]; auto; discriminate.
  - destruct (cstep (bs_cat s) (CDrop h)) as [c y]; destruct y; intros E; injection E as <- <-; intros [H|H]; auto; discriminate.
Qed.

Lemma left_same c o c' x : cstep c o = (c', x) -> x <> CUnit -> (match o with CChange _ _ | CPublish _ | CStep | CClone _ | CDrop _ => True | _ => False end) ->
  left_over (cs_lock c') <= left_over (cs_lock c).
Proof.
  intros E Nx Ho. destruct o as [q d|q| |q|q| | | | |]; try contradiction; cbn [Catalog.cstep] in E.
  - destruct (free_handle c q); [|injection E as <- <-; auto]. destruct (cs_lock c) eqn:El; injection E as <- <-; congruence || (rewrite El; auto).
  - destruct (free_handle c q); [|injection E as <- <-; auto]. destruct (cs_lock c) eqn:El; injection E as <- <-; congruence || (rewrite El; auto).
  - destruct (cs_lock c) as [| |q k] eqn:El; try (injection E as <- <-; rewrite El; auto; fail).
    assert (Ol : forall ops nx, on_last w c ops nx = (c', x) -> left_over (cs_lock c') <= 0).
    { intros ops nx. unfold on_last. destruct (nth_error (cs_groups c) _) as [gx|]; [|intros E'; injection E' as <- <-; auto].
      destruct (gsteps w gx ops) as [g' [|]]; intros E'; injection E' as <- <-; [congruence|auto]. }
    destruct k; cbn [cpublish] in E; try (apply Ol in E; lia).
    + destruct (tstep m _ _) as [t y]. destruct y; injection E as <- <-; try congruence; cbn; lia.
    + destruct (tstep m _ _) as [t y]. destruct y; injection E as <- <-; try congruence; cbn; lia.
  - destruct (free_handle c q); [|injection E as <- <-; auto]. destruct (tstep m _ _) as [t y]. destruct y; injection E as <- <-; auto.
  - destruct (free_handle c q); [|injection E as <- <-; auto]. destruct (tstep m _ _) as [t y]. destruct y; injection E as <- <-; auto.
Qed.

Lemma go_panics s i s' : bcstep s (BGo i) = (s', BPanic) -> work s' < work s.
Proof.
  cbn [Catalog.bcstep]. destruct (nth_error (bs_threads s) i) as [[h [|a todo]]|] eqn:Et; try discriminate.
  assert (Set_ : forall c, left_over (cs_lock c) <= left_over (cs_lock (bs_cat s)) -> work (set_todo s c i h []) < work s).
  { intros c Hc. unfold work, set_todo. cbn [bs_threads bs_cat]. pose proof (sum_set i _ (Thread h []) _ Et) as H.
    unfold tweight at 2 4 in H. cbn [th_todo] in H. unfold list_sum in *. cbn [map fold_right] in H.
    assert (1 <= aweight a) by (destruct a; cbn; lia). lia. }
  destruct a as [d| | |r k|k|].
  - destruct (cstep (bs_cat s) (CChange h d)) as [c x] eqn:Ec. destruct x; try discriminate; intros E; injection E as <-; apply Set_; (eapply left_same; [eassumption|discriminate|exact Logic.I]).
  - destruct (cstep (bs_cat s) (CPublish h)) as [c x] eqn:Ec. destruct x; try discriminate; intros E; injection E as <-; apply Set_; (eapply left_same; [eassumption|discriminate|exact Logic.I]).
  - destruct (cstep (bs_cat s) CStep) as [c x] eqn:Ec. destruct x; try discriminate; intros E; injection E as <-; apply Set_; (eapply left_same; [eassumption|discriminate|exact Logic.I]).
  - destruct (cstep (bs_cat s) (CClone h)) as [c x] eqn:Ec. destruct x; try discriminate; intros E; injection E as <-; apply Set_; (eapply left_same; [eassumption|discriminate|exact Logic.I]).
  - destruct (nth_error (bs_ended s) k) as [[|]|]; discriminate.
  - destruct (cstep (bs_cat s) (CDrop h)) as [c x] eqn:Ec. destruct x; try discriminate; intros E; injection E as <-; apply Set_; (eapply left_same; [eassumption|discriminate|exact Logic.I]).
Qed.

Lemma go_out s i s' x : bcstep s (BGo i) = (s', x) -> x = BUnit \/ x = BPanic \/ x = BBad \/ x = BWait.
Proof.
  cbn [Catalog.bcstep]. destruct (nth_error (bs_threads s) i) as [[h [|a todo]]|]; try (intros E; injection E as <- <-; auto; fail).
  destruct a as [d| | |r k|k|].
  - destruct (cstep (bs_cat s) (CChange h d)) as [c y]; destruct y; intros E; injection E as <- <-; auto.
  - destruct (cstep (bs_cat s) (CPublish h)) as [c y]; destruct y; intros E; injection E as <- <-; auto.
  - destruct (cstep (bs_cat s) CStep) as [c y]; destruct y; intros E; injection E as <- <-; auto.
  - destruct (cstep (bs_cat s) (CClone h)) as [c y]; destruct y; intros E; injection E as <- <-; auto.
  - destruct (nth_error (bs_ended s) k) as [[|]|]; intros E; injection E as <- <-; auto.
  - destruct (cstep (bs_cat s) (CDrop h)) as [c y]; destruct y; intros E; injection E as <- <-; auto.
Qed.

Lemma settled_dec s : settled s \/ exists i s' x, bcstep s (BGo i) = (s', x) /\ work s' < work s.
Proof.
  assert (H : forall n, (forall i, i < n -> snd (bcstep s (BGo i)) = BBad \/ snd (bcstep s (BGo i)) = BWait) \/
     exists i s' x, bcstep s (BGo i) = (s', x) /\ work s' < work s).
  { induction n as [|n [IH|IH]]; auto; [left; intros; lia|].
    destruct (bcstep s (BGo n)) as [s' x] eqn:E. destruct (go_out _ _ _ _ E) as [->|[->|Hx]].
    - right. exists n, s', BUnit. split; auto. eapply go_works; eauto.
    - right. exists n, s', BPanic. split; auto. eapply go_panics; eauto.
    - left. intros i Hi. destruct (Nat.eq_dec i n) as [->|]; [rewrite E; auto|apply IH; lia]. }
  destruct (H (length (bs_threads s))) as [H1|H1]; auto. left. intros i.
  destruct (lt_dec i (length (bs_threads s))); auto. left. cbn [Catalog.bcstep].
  replace (nth_error (bs_threads s) i) with (@None (thread V A L)) by (symmetry; apply nth_error_None; lia). reflexivity.
Qed.

(** From every state the threads can run to rest. *)
Theorem task_settles s : exists is_, settled (fst (bcrun s (map (fun i => BGo i) is_))).
Proof.
  remember (work s) as n eqn:En. revert s En. induction n as [n IH] using lt_wf_ind. intros s ->.
  destruct (settled_dec s) as [H|(i & s' & x & E & Hw)]; [exists []; auto|].
  destruct (IH _ Hw s' eq_refl) as (is_ & H). exists (i :: is_). cbn [map Catalog.bcrun]. rewrite E.
  destruct (bcrun s' (map (fun i => BGo i) is_)). auto.
Qed.

(** And they cannot run forever: the steps that are not waits are bounded. *)
Theorem task_no_livelock s : exists bound, forall is_ s' tr, bcrun s (map (fun i => BGo i) is_) = (s', tr) ->
  length (filter (fun e => match snd e with BUnit | BPanic => true | _ => false end) tr) <= bound.
Proof.
  exists (work s). intros is_. revert s. induction is_ as [|i is_ IH]; intros s s' tr; cbn [map Catalog.bcrun].
  - intros E. injection E as <- <-. cbn. lia.
  - destruct (bcstep s (BGo i)) as [s1 x] eqn:E1. destruct (bcrun s1 _) as [s2 tr2] eqn:E2. intros E. injection E as <- <-.
    specialize (IH _ _ _ E2). cbn [filter snd]. destruct (go_out _ _ _ _ E1) as [->|[->|Hx]].
    + apply go_works in E1. cbn [length]. lia.
    + apply go_panics in E1. cbn [length]. lia.
    + rewrite (go_waits _ _ _ _ E1 Hx) in IH. destruct Hx as [->| ->]; auto.
Qed.
End TaskP.
