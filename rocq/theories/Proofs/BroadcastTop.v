(** What the events of a broadcast determine. *)
From Coq Require Import NArith ZArith List Lia Bool.
From Coq Require Import Init.Byte Strings.Byte.
From Coq Require Import ZifyBool ZifyNat ZifyN.
From Verif.Model Require Import Base ErrorCode Stream Frame FrameSys Map BroadcastSys.
From Verif.Spec Require Import BroadcastSpec.
From Verif.Proofs Require Import TableP MapP BroadcastP.
Import ListNotations.
Open Scope nat_scope.

Lemma served_snoc n tr e : fst (served n (tr ++ [e])) = fst (serve n (fst (served n tr), serving n tr) e).
Proof. unfold serving, served. rewrite fold_left_app. cbn. destruct (fold_left _ tr _); auto. Qed.
Lemma serving_snoc n tr e : serving n (tr ++ [e]) = snd (serve n (fst (served n tr), serving n tr) e).
Proof. unfold serving, served. rewrite fold_left_app. cbn. destruct (fold_left _ tr _); auto. Qed.
Lemma producers_snoc tr e : producers (tr ++ [e]) = producing (producers tr) e.
Proof. unfold producers. rewrite fold_left_app. auto. Qed.
Lemma handed_snoc tr e : handed (tr ++ [e]) = handed tr ++ handed_of e.
Proof. unfold handed. rewrite flat_map_app. cbn. rewrite app_nil_r. auto. Qed.
Lemma missed_snoc tr e : missed (tr ++ [e]) = missed tr ++ missed_of e.
Proof. unfold missed. rewrite flat_map_app. cbn. rewrite app_nil_r. auto. Qed.
Lemma offered_snoc tr e : offered (tr ++ [e]) = offered tr ++ offered_of e.
Proof. unfold offered. rewrite flat_map_app. cbn. rewrite app_nil_r. auto. Qed.
Lemma given_snoc tr e : given (tr ++ [e]) = given tr ++ given_of e.
Proof. unfold given. rewrite flat_map_app. cbn. rewrite app_nil_r. auto. Qed.
Lemma stopped_snoc t tr e : stopped t (tr ++ [e]) <-> stopped t tr \/ exists o, e = (BEnd t o, BUnit).
Proof.
  unfold stopped. setoid_rewrite in_app_iff. cbn. split.
  - intros [o [H|[H|[]]]]; eauto.
  - intros [[o H]|[o H]]; eauto.
Qed.
Lemma shut_snoc tr e : shut (tr ++ [e]) <-> shut tr \/ exists p, e = (BDrop p, BShutdown).
Proof.
  unfold shut. setoid_rewrite in_app_iff. cbn. split.
  - intros [o [H|[H|[]]]]; eauto.
  - intros [[o H]|[o H]]; eauto.
Qed.

Ltac bsnoc := rewrite ?served_snoc, ?serving_snoc, ?producers_snoc, ?handed_snoc, ?missed_snoc, ?offered_snoc, ?given_snoc;
  cbn [serve fst snd handed_of missed_of offered_of given_of producing]; rewrite ?app_nil_r.

Record btr (s : bsys) (tr : list bevent) : Prop := {
  r_names : forall n, fst (served n tr) = map tk_name (bs_tracks s);
  r_lookup : forall n t, lookup n (bs_published s) = Some t -> serving n tr = Some t;
  r_named : forall n t, serving n tr = Some t -> exists e h, nth_error (bs_tracks s) t = Some (Track n e h);
  r_serving : forall n t m h, live (bs_prods s) = true -> serving n tr = Some t ->
    nth_error (bs_tracks s) t = Some (Track m None h) -> lookup n (bs_published s) = Some t;
  r_stopped : forall t, stopped t tr -> exists n o h, nth_error (bs_tracks s) t = Some (Track n (Some o) h);
  r_alive : forall t n o h, live (bs_prods s) = true -> nth_error (bs_tracks s) t = Some (Track n (Some o) h) -> stopped t tr;
  r_shut : shut tr <-> live (bs_prods s) = false;
  r_prods : producers tr = Z.of_nat (count (bs_prods s));
  r_missed : live (bs_prods s) = true -> missed tr = handed tr ++ bs_queue s;
  r_handed : exists rest, missed tr = handed tr ++ rest;
  r_fresh : NoDup (missed tr ++ offered tr);
  r_ids : forall t, In t (missed tr ++ offered tr) <-> t < length (bs_tracks s);
  r_held : forall t n e, nth_error (bs_tracks s) t = Some (Track n e true) -> In t (handed tr ++ offered tr);
  r_queued : forall t, In t (bs_queue s) -> In t (missed tr);
  r_given : forall t, In t (given tr) -> t < length (bs_tracks s) }.

Lemma btr_new : btr bsys_new [].
Proof.
  split; cbn; try tauto; try discriminate; try (intros; destruct t; discriminate); auto.
  - intros t [o []].
  - split; [intros [p []]|discriminate].
  - eauto.
  - constructor.
  - intros t; split; [tauto|lia].
Qed.

(** Events that no specification function reacts to. *)
Definition bquiet (e : bevent) : Prop :=
  (forall n st, serve n st e = st) /\ (forall z, producing z e = z) /\
  handed_of e = [] /\ missed_of e = [] /\ offered_of e = [] /\ given_of e = [] /\
  (forall t o, e <> (BEnd t o, BUnit)) /\ (forall p, e <> (BDrop p, BShutdown)).

Ltac bq := split; [intros ? [? ?]; reflexivity|split; [reflexivity|repeat (split; [reflexivity|]); split; congruence]].

Lemma btr_quiet s s' tr e :
  bquiet e -> btr s tr ->
  bs_tracks s' = bs_tracks s -> bs_published s' = bs_published s -> bs_queue s' = bs_queue s ->
  live (bs_prods s') = live (bs_prods s) -> count (bs_prods s') = count (bs_prods s) -> btr s' (tr ++ [e]).
Proof.
  intros (Q1 & Q2 & Q3 & Q4 & Q5 & Q5' & Q6 & Q7) [R1 R2 R3 R4 R5 R6 R7 R8 R9 R10 R11 R12 R13 R14] E1 E2 E3 E4 E5.
  split; intros *; rewrite ?served_snoc, ?serving_snoc, ?producers_snoc, ?handed_snoc, ?missed_snoc, ?offered_snoc, ?given_snoc, ?E1, ?E2, ?E3, ?E4, ?E5,
    ?Q1, ?Q2, ?Q3, ?Q4, ?Q5, ?Q5', ?app_nil_r; eauto.
  - rewrite stopped_snoc. intros [H|[o H]]; [eauto|]. destruct (Q6 _ _ H).
  - intros V H. apply stopped_snoc. left. eauto.
  - rewrite shut_snoc, <- R7. split; [intros [H|[p H]]; [auto|destruct (Q7 _ H)]|auto].
Qed.

Ltac bquietly := eapply btr_quiet; [bq|eassumption|..]; reflexivity.

Lemma nth_error_names s tr n t e h m : btr s tr -> nth_error (bs_tracks s) t = Some (Track n e h) ->
  nth_error (fst (served m tr)) t = Some n.
Proof. intros R E. rewrite (r_names _ _ R m). erewrite map_nth_error; eauto. auto. Qed.

Lemma NoDup_mid {A} (x : A) l m : NoDup (l ++ m) -> ~ In x (l ++ m) -> NoDup ((l ++ [x]) ++ m).
Proof.
  intros H N. rewrite <- app_assoc. cbn. apply NoDup_Add with (a := x) (l := l ++ m); auto.
  apply Add_app.
Qed.

Lemma btr_subscribe s tr c n s' x : bwf s -> btr s tr -> bstep s (BSubscribe c n) = (s', x) ->
  btr s' (tr ++ [(BSubscribe c n, x)]).
Proof.
  intros W R B. unfold bstep in B. destruct (get (bs_cons s) c) eqn:G; [|injection B as <- <-; bquietly].
  destruct (lookup n (bs_published s)) as [t|] eqn:L.
  { injection B as <- <-. destruct R as [R1 R2 R3 R4 R5 R6 R7 R8 R9 R10 R11 R12 R13 R14 R15].
    split; intros *; bsnoc; eauto.
    - rewrite stopped_snoc. intros [H|[o H]]; [eauto|discriminate].
    - intros V H. apply stopped_snoc. left. eauto.
    - rewrite shut_snoc, <- R7. split; [intros [H|[p H]]; [auto|discriminate]|auto].
    - rewrite in_app_iff. cbn. intros [H|[<-|[]]]; auto. apply R12. apply R12.
      destruct (w_pub _ W _ _ L) as (? & ? & E). apply nth_error_len in E. auto. }
  set (tk := Track n (if bs_chan_closed s then Some (Failed Cancel) else None) false).
  set (t := length (bs_tracks s)) in *.
  assert (X : x = BTrack t true) by (destruct (bs_chan_closed s); injection B as _ <-; auto). subst x.
  assert (T : bs_tracks s' = bs_tracks s ++ [tk]) by (unfold tk; destruct (bs_chan_closed s); injection B as <-; auto).
  assert (P : bs_published s' = put n t (bs_published s)) by (destruct (bs_chan_closed s); injection B as <-; auto).
  assert (D : bs_prods s' = bs_prods s) by (destruct (bs_chan_closed s); injection B as <-; auto).
  assert (Q : bs_queue s' = if bs_chan_closed s then bs_queue s else bs_queue s ++ [t]) by (destruct (bs_chan_closed s); injection B as <-; auto).
  clear B. destruct R as [R1 R2 R3 R4 R5 R6 R7 R8 R9 R10 R11 R12 R13 R14 R15]. fold t in R12, R15.
  assert (O : live (bs_prods s) = true -> bs_chan_closed s = false) by (intros V; apply (w_open _ W V)).
  assert (Fr : ~ In t (missed tr ++ offered tr)) by (rewrite R12; lia).
  split; intros *; bsnoc; rewrite ?D, ?P, ?T; eauto.
  - rewrite R1, map_app. auto.
  - rewrite lookup_put, (str_eqb_sym n n0). destruct (str_eqb n0 n); auto.
  - rewrite nth_error_snoc. fold t. destruct (str_eqb_spec n n0) as [<-|N].
    + intros [= <-]. rewrite Nat.eqb_refl. unfold tk. eauto.
    + intros H. destruct (R3 _ _ H) as (e & h & E). destr_if; [|eauto]. unfold t in E. too_long.
  - rewrite nth_error_snoc, lookup_put, (str_eqb_sym n0 n). fold t. intros V H E.
    destruct (str_eqb_spec n n0) as [<-|N]; auto. destruct (Nat.eqb_spec t0 t) as [->|N']; [|eauto].
    destruct (R3 _ _ H) as (e & h' & E'). unfold t in E'. too_long.
  - rewrite nth_error_snoc, stopped_snoc. fold t. intros [H|[o H]]; [|discriminate].
    destruct (R5 _ H) as (m & o & h & E). destr_if; [unfold t in E; too_long|eauto].
  - rewrite nth_error_snoc, stopped_snoc. fold t. intros V E. left.
    destruct (Nat.eqb_spec t0 t) as [->|N']; [|eauto].
    unfold tk in E. rewrite (O V) in E. discriminate.
  - rewrite shut_snoc, <- R7. split; [intros [H|[p H]]; [auto|discriminate]|auto].
  - intros V. rewrite Q, (O V), R9, <- app_assoc; auto.
  - destruct R10 as [rest ->]. exists (rest ++ [t]). rewrite app_assoc. auto.
  - apply NoDup_mid; auto.
  - specialize (R12 t0). rewrite !in_app_iff in R12. rewrite !in_app_iff, app_length. cbn. fold t.
    destruct (Nat.eq_dec t0 t); [subst; split; intros; [lia|auto]|]. split; intros H.
    + assert (t0 < t) by (apply R12; intuition congruence). lia.
    + assert (t0 < t) by lia. tauto.
  - rewrite nth_error_snoc. fold t. destr_if; [discriminate|eauto].
  - rewrite Q. rewrite in_app_iff. destruct (bs_chan_closed s); [eauto|]. rewrite in_app_iff. intros [I|I]; eauto.
  - rewrite in_app_iff, app_length. cbn. fold t. intros [I|[<-|[]]]; [apply R15 in I|]; lia.
Qed.

Ltac bstart := split; intros *; bsnoc; eauto;
  try (rewrite stopped_snoc; intros [?|[? ?]]; [solve [eauto]|discriminate]);
  try (intros; apply stopped_snoc; left; solve [eauto]);
  try (rewrite shut_snoc; match goal with R7 : shut _ <-> _ |- _ => rewrite <- R7 end;
       split; [intros [?|[? ?]]; [auto|discriminate]|auto]; fail).

Lemma btr_request s tr p s' x : bwf s -> btr s tr -> bstep s (BRequest p) = (s', x) ->
  btr s' (tr ++ [(BRequest p, x)]).
Proof.
  intros W R B. unfold bstep in B. destruct (get (bs_prods s) p) eqn:G; [|injection B as <- <-; bquietly].
  destruct (bs_queue s) as [|t q] eqn:Q.
  { injection B as <- <-. destruct (bs_chan_closed s); bquietly. }
  injection B as <- <-. bstate. pose proof (live_get _ _ _ G) as V0.
  destruct (w_queue _ W t) as [m Em]; [rewrite Q; left; auto|].
  destruct R as [R1 R2 R3 R4 R5 R6 R7 R8 R9 R10 R11 R12 R13 R14 R15]. rewrite Q in *.
  bstart; bstate; rewrite ?nth_error_hold, ?hold_names, ?hold_length, ?Em; eauto.
  - intros H. destruct (R3 _ _ H) as (e & h & E). destr_if; [|eauto]. exists None, true. congruence.
  - intros V H E. destr_if; [injection E as <- _; eauto|eauto].
  - rewrite stopped_snoc. intros [H|[o H]]; [|discriminate]. destruct (R5 _ H) as (k & o & h & E). destr_if; [congruence|eauto].
  - intros V E. apply stopped_snoc. left. destr_if; [discriminate|eauto].
  - intros V. rewrite R9, <- app_assoc; auto.
  - exists q. rewrite R9, <- app_assoc; auto.
  - intros E. rewrite !in_app_iff. cbn. destr_if; [auto|]. apply R13 in E. rewrite in_app_iff in E. tauto.
  - intros I. apply R14. right. auto.
Qed.

Lemma btr_track s tr o n t : bwf s -> btr s tr ->
  o = BNewTrack n -> t = length (bs_tracks s) ->
  btr (bwith_tracks s (bs_tracks s ++ [Track n None true])) (tr ++ [(o, BTrack t true)]).
Proof.
  intros W [R1 R2 R3 R4 R5 R6 R7 R8 R9 R10 R11 R12 R13 R14 R15] -> ->. bstate.
  assert (Fr : ~ In (length (bs_tracks s)) (missed tr ++ offered tr)) by (rewrite R12; lia).
  bstart; bstate; rewrite ?nth_error_snoc; eauto.
  - rewrite R1, map_app. auto.
  - intros H. destruct (R3 _ _ H) as (e & h & E). destr_if; [too_long|eauto].
  - intros V H E. destr_if; [|eauto]. destruct (R3 _ _ H) as (e & h' & E'). too_long.
  - rewrite stopped_snoc. intros [H|[o H]]; [|discriminate]. destruct (R5 _ H) as (k & o & h & E). destr_if; [too_long|eauto].
  - intros V E. apply stopped_snoc. left. destr_if; [discriminate|eauto].
  - rewrite app_assoc. apply NoDup_snoc; auto.
  - specialize (R12 t). rewrite !in_app_iff in R12. rewrite !in_app_iff, app_length. cbn.
    destruct (Nat.eq_dec t (length (bs_tracks s))); [subst; split; intros; [lia|auto]|]. split; intros H.
    + assert (t < length (bs_tracks s)) by (apply R12; intuition congruence). lia.
    + assert (t < length (bs_tracks s)) by lia. tauto.
  - intros E. rewrite !in_app_iff. cbn. destr_if; [auto|]. apply R13 in E. rewrite in_app_iff in E. tauto.
  - rewrite app_length. intros I. apply R15 in I. lia.
Qed.

Lemma btr_insert s tr p t n e h b s' u : bwf s -> btr s tr -> nth_error (bs_tracks s) t = Some (Track n e h) ->
  broadcast_insert t n s = (s', u) -> btr s' (tr ++ [(BInsert p t, BUnique b)]).
Proof.
  intros W R T B. pose proof (fun m => nth_error_names s tr n t e h m R T) as NN.
  unfold broadcast_insert in B. injection B as <- _. bstate.
  destruct R as [R1 R2 R3 R4 R5 R6 R7 R8 R9 R10 R11 R12 R13 R14 R15].
  bstart; bstate; rewrite ?NN, ?lookup_put; eauto.
  - destruct (str_eqb_spec n0 n) as [->|N]; [rewrite str_eqb_refl; auto|].
    intros L. apply R2 in L. destruct (str_eqb_spec n n0); congruence.
  - destr_if; [intros [= <-]; eauto|eauto].
  - intros V H E. rewrite (str_eqb_sym n0 n). destr_if; [auto|eauto].
Qed.

(** Creating is making a track and inserting it. *)
Lemma btr_create s tr p n s' x : bwf s -> btr s tr -> bstep s (BCreate p n) = (s', x) ->
  btr s' (tr ++ [(BCreate p n, x)]).
Proof.
  intros W R B. unfold bstep in B. destruct (get (bs_prods s) p) eqn:G; [|injection B as <- <-; bquietly].
  pose proof (f_equal fst B) as Bs. pose proof (f_equal snd B) as Bx. cbn [fst snd] in Bs, Bx. subst s' x. clear B.
  pose proof (btr_track s tr _ n _ W R eq_refl eq_refl) as R1.
  pose proof (bwf_new_track s n W) as W1.
  set (s1 := bwith_tracks s _) in *.
  assert (T : nth_error (bs_tracks s1) (length (bs_tracks s)) = Some (Track n None true)).
  { cbn. rewrite nth_error_snoc, Nat.eqb_refl. auto. }
  destruct (broadcast_insert (length (bs_tracks s)) n s1) as [s2 uq] eqn:B.
  pose proof (btr_insert s1 _ p _ n _ _ true s2 uq W1 R1 T B) as R2. cbn [fst].
  destruct R2 as [Q1 Q2 Q3 Q4 Q5 Q6 Q7 Q8 Q9 Q10 Q11 Q12 Q13 Q14 Q15].
  assert (SV : forall m, serve m (fst (served m tr), serving m tr) (BCreate p n, BTrack (length (bs_tracks s)) true)
     = (fst (served m (((tr ++ [(BNewTrack n, BTrack (length (bs_tracks s)) true)]) ++ [(BInsert p (length (bs_tracks s)), BUnique true)]))),
        serving m (((tr ++ [(BNewTrack n, BTrack (length (bs_tracks s)) true)]) ++ [(BInsert p (length (bs_tracks s)), BUnique true)])))).
  { intros m. rewrite !serving_snoc, !served_snoc, ?serving_snoc. cbn [serve fst snd].
    assert (NN : nth_error (fst (served m tr) ++ [n]) (length (bs_tracks s)) = Some n).
    { rewrite (r_names _ _ R m). rewrite nth_error_snoc, map_length, Nat.eqb_refl. auto. }
    rewrite NN. auto. }
  assert (EV : forall t, stopped t (tr ++ [(BCreate p n, BTrack (length (bs_tracks s)) true)]) <->
     stopped t (((tr ++ [(BNewTrack n, BTrack (length (bs_tracks s)) true)]) ++ [(BInsert p (length (bs_tracks s)), BUnique true)]))).
  { intros t. rewrite !stopped_snoc. split; intros; repeat (match goal with H : _ \/ _ |- _ => destruct H | H : exists _, _ |- _ => destruct H end); try congruence; auto. }
  assert (SH : shut (tr ++ [(BCreate p n, BTrack (length (bs_tracks s)) true)]) <->
     shut (((tr ++ [(BNewTrack n, BTrack (length (bs_tracks s)) true)]) ++ [(BInsert p (length (bs_tracks s)), BUnique true)]))).
  { rewrite !shut_snoc. split; intros; repeat (match goal with H : _ \/ _ |- _ => destruct H | H : exists _, _ |- _ => destruct H end); try congruence; auto. }
  rewrite !producers_snoc, !handed_snoc, !missed_snoc, !offered_snoc, !given_snoc in *.
  cbn [producing handed_of missed_of offered_of given_of] in *. rewrite ?app_nil_r in *.
  split; intros *; rewrite ?served_snoc, ?serving_snoc, ?producers_snoc, ?handed_snoc, ?missed_snoc, ?offered_snoc, ?given_snoc, ?SV, ?EV, ?SH;
    cbn [fst snd producing handed_of missed_of offered_of given_of]; rewrite ?app_nil_r; eauto.
Qed.

Lemma btr_end s tr t o s' x : bwf s -> btr s tr -> bstep s (BEnd t o) = (s', x) -> btr s' (tr ++ [(BEnd t o, x)]).
Proof.
  intros W R B. unfold bstep in B. destruct (nth_error (bs_tracks s) t) as [[n [e|] [|]]|] eqn:T;
    injection B as <- <-; try bquietly.
  destruct R as [R1 R2 R3 R4 R5 R6 R7 R8 R9 R10 R11 R12 R13 R14 R15]. bstate.
  bstart; bstate; rewrite ?nth_error_end, ?end_names, ?end_length, ?T; eauto.
  - intros H. destruct (R3 _ _ H) as (e & h & E). destr_if; [|eauto]. exists (Some o), true. congruence.
  - intros V H E. destr_if; [discriminate|eauto].
  - rewrite stopped_snoc. destr_if; [eauto|]. intros [H|[o' H]]; [eauto|congruence].
  - intros V E. apply stopped_snoc. destr_if; [right; eauto|left; eauto].
  - intros E. destr_if; [|eauto]. eapply R13; eauto.
Qed.

Lemma btr_cleanup s tr k s' x : bwf s -> btr s tr -> bstep s (BCleanup k) = (s', x) -> btr s' (tr ++ [(BCleanup k, x)]).
Proof.
  intros W R B. unfold bstep in B. destruct (get (bs_tasks s) k) as [t|] eqn:K; [|injection B as <- <-; bquietly].
  destruct (nth_error (bs_tracks s) t) as [[n [o|] h]|] eqn:T; try (injection B as <- <-; bquietly).
  bstate. destruct (lookup n (bs_published s)) as [t'|] eqn:L; [destruct (Nat.eqb_spec t t') as [<-|N]|]; injection B as <- <-; [| |bquietly].
  - destruct R as [R1 R2 R3 R4 R5 R6 R7 R8 R9 R10 R11 R12 R13 R14 R15].
    bstart; bstate; rewrite ?lookup_remove; eauto.
    + destr_if; [discriminate|eauto].
    + intros V H E. destr_if; [|eauto]. apply R2 in L. congruence.
  - destruct R as [R1 R2 R3 R4 R5 R6 R7 R8 R9 R10 R11 R12 R13 R14 R15].
    bstart; bstate; rewrite ?lookup_put, ?lookup_remove; eauto.
    + destr_if; [intros [= <-]; auto|eauto].
    + intros V H E. destr_if; [|eauto]. apply R2 in L. congruence.
Qed.

Lemma btr_drop s tr p s' x : bwf s -> btr s tr -> bstep s (BDrop p) = (s', x) -> btr s' (tr ++ [(BDrop p, x)]).
Proof.
  intros W R B. unfold bstep in B. destruct (get (bs_prods s) p) as [u|] eqn:P; [|injection B as <- <-; bquietly].
  pose proof (live_get _ _ _ P) as V0. pose proof (count_kill _ _ _ P) as CK. pose proof (w_cloned _ W) as Wc.
  destruct R as [R1 R2 R3 R4 R5 R6 R7 R8 R9 R10 R11 R12 R13 R14 R15].
  destruct (0 <? bs_cloned s)%Z eqn:C; injection B as <- <-.
  - assert (V : live (set_nth p None (bs_prods s)) = true) by (apply count_live_ge; lia).
    bstart; bstate; rewrite ?V; eauto.
    + rewrite shut_snoc, R7. split; [intros [H|[q H]]; congruence|congruence].
    + rewrite R8. lia.
  - assert (V : live (set_nth p None (bs_prods s)) = false).
    { destruct (live (set_nth p None (bs_prods s))) eqn:V; auto. apply count_live_ge in V. lia. }
    bstart; bstate; rewrite ?V; eauto; try discriminate.
    + rewrite shut_snoc. split; [auto|eauto].
    + rewrite R8. lia.
Qed.

Lemma btr_drop_step s tr s' x : bwf s -> btr s tr -> bstep s BDropStep = (s', x) -> btr s' (tr ++ [(BDropStep, x)]).
Proof.
  intros W R B. unfold bstep in B. destruct (bs_drop s) as [ph|] eqn:Dn; [|injection B as <- <-; bquietly].
  assert (V0 : live (bs_prods s) = false).
  { destruct (live (bs_prods s)) eqn:V; auto. destruct (w_open _ W V). congruence. }
  destruct ph; [injection B as <- <-; bquietly| |].
  - destruct (bs_queue s) as [|t q] eqn:Q; injection B as <- <-; [bquietly|].
    destruct (w_queue _ W t) as [m Em]; [rewrite Q; left; auto|].
    destruct R as [R1 R2 R3 R4 R5 R6 R7 R8 R9 R10 R11 R12 R13 R14 R15]. bstate. rewrite Q in *.
    bstart; bstate; rewrite ?nth_error_end, ?end_names, ?end_length, ?Em; eauto; try congruence.
    + intros H. destruct (R3 _ _ H) as (e & h & E). destr_if; [|eauto]. exists (Some (Failed Cancel)), false. congruence.
    + rewrite stopped_snoc. intros [H|[o' H]]; [|congruence]. destruct (R5 _ H) as (k & o & h & E). destr_if; [congruence|eauto].
    + intros E. destr_if; [discriminate|eauto].
    + intros I. apply R14. right. auto.
  - injection B as <- <-. destruct R as [R1 R2 R3 R4 R5 R6 R7 R8 R9 R10 R11 R12 R13 R14 R15].
    bstart; bstate; eauto; cbn; try congruence.
Qed.

Lemma btr_step s tr o s' x : bwf s -> btr s tr -> bstep s o = (s', x) -> btr s' (tr ++ [(o, x)]).
Proof.
  intros W R B. destruct o; try (unfold bstep in B;
    (destruct (get (bs_prods s) p) eqn:P || destruct (get (bs_cons s) c) eqn:P || destruct (bs_guards s) eqn:P);
    injection B as <- <-; bquietly; fail).
  - eapply btr_subscribe; eauto.
  - eapply btr_request; eauto.
  - eapply btr_create; eauto.
  - injection B as <- <-. eapply btr_track; eauto.
  - unfold bstep in B. destruct (get (bs_prods s) p) eqn:P; [|injection B as <- <-; bquietly].
    destruct (nth_error (bs_tracks s) t) as [[n e h]|] eqn:T; [|injection B as <- <-; bquietly]. cbn [tk_name] in B.
    destruct (broadcast_insert t n s) as [s1 uq] eqn:I. injection B as <- <-. eapply btr_insert; eauto.
  - eapply btr_end; eauto.
  - eapply btr_cleanup; eauto.
  - unfold bstep in B. destruct (get (bs_prods s) p) eqn:P; injection B as <- <-; [|bquietly].
    pose proof (live_get _ _ _ P) as V0.
    destruct R as [R1 R2 R3 R4 R5 R6 R7 R8 R9 R10 R11 R12 R13 R14 R15].
    bstart; bstate; rewrite ?live_snoc_tt; eauto.
    + rewrite shut_snoc, R7. split; [intros [H|[q H]]; congruence|congruence].
    + rewrite R8, count_app. cbn. lia.
  - eapply btr_drop; eauto.
  - eapply btr_drop_step; eauto.
  - unfold bstep in B. destruct (nth_error (bs_tracks s) t) eqn:T; injection B as <- <-; bquietly.
Qed.

Lemma btr_run ops s tr : brun bsys_new ops = (s, tr) -> bwf s /\ btr s tr.
Proof.
  revert s tr. induction ops as [|o ops IH] using rev_ind; intros s tr.
  - cbn. intros [= <- <-]. split; [apply bwf_new|apply btr_new].
  - rewrite brun_snoc. destruct (brun bsys_new ops) as [s1 tr1]. destruct (IH _ _ eq_refl) as [W R].
    pose proof (bwf_step s1 o W) as W'. destruct (bstep s1 o) as [s2 x] eqn:B. intros [= <- <-].
    split; [exact W'|]. exact (btr_step s1 tr1 o s2 x W R B).
Qed.

(** * C31 *)
Lemma subscribe_joins ops s tr c n t s' x :
  brun bsys_new ops = (s, tr) -> ~ shut tr -> serving n tr = Some t -> ~ stopped t tr ->
  bstep s (BSubscribe c n) = (s', x) -> x <> BBad -> x = BTrack t false /\ s' = s.
Proof.
  intros H N S T B NB. destruct (btr_run _ _ _ H) as [W R].
  assert (V : live (bs_prods s) = true).
  { destruct (live (bs_prods s)) eqn:V; auto. exfalso. apply N. apply (r_shut _ _ R). auto. }
  destruct (r_named _ _ R _ _ S) as (e & h & E).
  assert (e = None) as ->.
  { destruct e as [o|]; auto. exfalso. apply T. eapply r_alive; eauto. }
  pose proof (r_serving _ _ R _ _ _ _ V S E) as L.
  unfold bstep in B. destruct (get (bs_cons s) c); [|injection B as <- <-; congruence].
  rewrite L in B. injection B as <- <-. auto.
Qed.

Lemma subscribe_gives ops s tr c n t s' :
  brun bsys_new ops = (s, tr) -> bstep s (BSubscribe c n) = (s', BTrack t false) -> serving n tr = Some t /\ s' = s.
Proof.
  intros H B. destruct (btr_run _ _ _ H) as [W R].
  unfold bstep in B. destruct (get (bs_cons s) c); [|discriminate].
  destruct (lookup n (bs_published s)) eqn:L.
  - injection B as <- <-. split; auto. eapply r_lookup; eauto.
  - destruct (bs_chan_closed s); discriminate.
Qed.

Lemma NoDup_app_l {A} (l m : list A) : NoDup (l ++ m) -> NoDup l.
Proof. induction l; cbn; intros H; [constructor|]. inversion H; subst. constructor; auto. rewrite in_app_iff in *. tauto. Qed.

Lemma requests_in_order ops s tr : brun bsys_new ops = (s, tr) ->
  NoDup (handed tr) /\ exists rest, missed tr = handed tr ++ rest.
Proof.
  intros H. destruct (btr_run _ _ _ H) as [W R]. destruct (r_handed _ _ R) as [rest E]. split; [|eauto].
  pose proof (r_fresh _ _ R) as N. rewrite E in N. apply NoDup_app_l, NoDup_app_l in N. auto.
Qed.

(** * C32 *)
Lemma over_iff s t : over s t <-> exists n o h, nth_error (bs_tracks s) t = Some (Track n (Some o) h).
Proof.
  unfold over. cbn. destruct (nth_error (bs_tracks s) t) as [[n e h]|]; cbn; split.
  - intros [o [= ->]]. eauto.
  - intros (a & b & c & [= _ -> _]). eauto.
  - intros [o [=]].
  - intros (a & b & c & [=]).
Qed.

Lemma request_eventually t p : forall q s, bs_queue s = q -> In t q -> get (bs_prods s) p <> None ->
  exists k, In (BRequest p, BRequested (AOk (Some t))) (snd (brun s (repeat (BRequest p) k))).
Proof.
  induction q as [|u q IH]; intros s Q I G; [destruct I|].
  destruct (get (bs_prods s) p) as [v|] eqn:P; [|congruence].
  set (s1 := bwith_tasks (bwith_tracks (bwith_queue s q) (hold_track u (bs_tracks s))) (bs_tasks s ++ [Some u])).
  assert (E : bstep s (BRequest p) = (s1, BRequested (AOk (Some u)))) by (unfold bstep; rewrite P, Q; auto).
  destruct I as [->|I].
  - exists 1. cbn [repeat brun]. rewrite E. cbn. auto.
  - destruct (IH s1 eq_refl I) as [k K]; [cbn; congruence|]. exists (S k). cbn [repeat]. cbn [brun]. rewrite E.
    destruct (brun s1 (repeat (BRequest p) k)) as [s2 tr2]. right. exact K.
Qed.

Lemma over_mono_drop s t : over s t -> over (fst (bstep s BDropStep)) t.
Proof.
  rewrite !over_iff. intros (n & o & h & E). unfold bstep. destruct (bs_drop s) as [[]|]; cbn; eauto.
  destruct (bs_queue s) as [|u q]; cbn; eauto. rewrite nth_error_end.
  destruct (Nat.eqb_spec t u) as [->|]; [rewrite E|]; eauto.
Qed.
Lemma over_mono_drops s t k : over s t -> over (fst (brun s (repeat BDropStep k))) t.
Proof.
  revert s. induction k; intros s O; [exact O|]. cbn [repeat brun].
  pose proof (over_mono_drop s t O) as O1. destruct (bstep s BDropStep) as [s1 x]. specialize (IHk s1 O1).
  destruct (brun s1 _). exact IHk.
Qed.

Lemma brun_repeat_S s o k : fst (brun s (repeat o (S k))) = fst (brun (fst (bstep s o)) (repeat o k)).
Proof. cbn [repeat brun]. destruct (bstep s o) as [s1 x]. cbn [fst]. destruct (brun s1 _). auto. Qed.

Lemma drain_eventually t : forall q s, bs_drop s = Some PDrain -> bs_queue s = q -> In t q ->
  (forall u, In u q -> exists n, nth_error (bs_tracks s) u = Some (Track n None false)) -> NoDup q ->
  exists k, over (fst (brun s (repeat BDropStep k))) t.
Proof.
  induction q as [|u q IH]; intros s D Q I A N; [destruct I|].
  set (s1 := bwith_tracks (bwith_queue s q) (end_track (Failed Cancel) u (bs_tracks s))).
  assert (E : fst (bstep s BDropStep) = s1) by (unfold bstep; rewrite D, Q; auto).
  inversion N as [|? ? Nu Nq]; subst. destruct I as [->|I].
  - exists 1. rewrite brun_repeat_S, E. cbn [repeat brun fst]. apply over_iff.
    destruct (A t (or_introl eq_refl)) as [n En]. cbn. rewrite nth_error_end, Nat.eqb_refl, En. eauto.
  - destruct (IH s1 D eq_refl I) as [k K]; auto.
    + intros v Iv. destruct (A v (or_intror Iv)) as [n En]. cbn. rewrite nth_error_end.
      destr_if; [tauto|eauto].
    + exists (S k). rewrite brun_repeat_S, E. exact K.
Qed.

Lemma no_dangling ops s tr t : brun bsys_new ops = (s, tr) -> In t (given tr) ->
  In t (offered tr) \/ In t (handed tr) \/ over s t \/
  ((forall p, snd (bstep s (BRequest p)) <> BBad ->
      exists k, In (BRequest p, BRequested (AOk (Some t))) (snd (brun s (repeat (BRequest p) k)))) /\
   (shut tr -> exists k, over (fst (brun s (repeat BDropStep k))) t)).
Proof.
  intros H G. destruct (btr_run _ _ _ H) as [W R]. apply (r_given _ _ R) in G.
  destruct (nth_error (bs_tracks s) t) as [[n e h]|] eqn:E; [|apply nth_error_None in E; lia].
  destruct e as [o|]; [right; right; left; apply over_iff; eauto|].
  destruct h.
  { apply (r_held _ _ R) in E. rewrite in_app_iff in E. tauto. }
  pose proof (w_unheld _ W _ _ E) as Q. right; right; right. split.
  - intros p P. eapply request_eventually; eauto. intros X. apply P. unfold bstep. rewrite X. auto.
  - intros Sh. apply (r_shut _ _ R) in Sh. pose proof (w_phase _ W Sh) as Ph.
    destruct (bs_drop s) as [[]|] eqn:D.
    + set (s1 := fst (bstep s BDropStep)).
      assert (E1 : s1 = bwith_drop (bwith_chan s true) (Some PDrain)) by (unfold s1, bstep; rewrite D; auto).
      destruct (drain_eventually t (bs_queue s) s1) as [k K]; rewrite ?E1; auto; try apply W.
      exists (S k). rewrite brun_repeat_S. exact K.
    + eapply drain_eventually; eauto; apply W.
    + destruct Ph as [_ X]. rewrite X in Q. destruct Q.
    + destruct Ph as [_ X]. rewrite X in Q. destruct Q.
Qed.

Lemma shutdown_leaves_none ops s tr t : brun bsys_new ops = (s, tr) -> In t (given tr) -> shut tr ->
  snd (bstep s BDropStep) = BBad -> In t (offered tr) \/ In t (handed tr) \/ over s t.
Proof.
  intros H G S D. destruct (btr_run _ _ _ H) as [W R]. apply (r_given _ _ R) in G. apply (r_shut _ _ R) in S.
  assert (Dn : bs_drop s = None).
  { unfold bstep in D. destruct (bs_drop s) as [[]|]; auto; try discriminate. destruct (bs_queue s); discriminate. }
  pose proof (w_phase _ W S) as Ph. rewrite Dn in Ph. destruct Ph as [_ Q].
  destruct (nth_error (bs_tracks s) t) as [[n e h]|] eqn:E; [|apply nth_error_None in E; lia].
  destruct e as [o|]; [right; right; apply over_iff; eauto|].
  destruct h.
  { apply (r_held _ _ R) in E. rewrite in_app_iff in E. tauto. }
  apply (w_unheld _ W) in E. rewrite Q in E. destruct E.
Qed.

Lemma drop_completes s : exists k, snd (bstep (fst (brun s (repeat BDropStep k))) BDropStep) = BBad.
Proof.
  assert (Hn : forall s, bs_drop s = None -> snd (bstep s BDropStep) = BBad).
  { intros s0 D. unfold bstep. rewrite D. auto. }
  assert (Hc : forall s, bs_drop s = Some PClear -> exists k, snd (bstep (fst (brun s (repeat BDropStep k))) BDropStep) = BBad).
  { intros s0 D. exists 1. rewrite brun_repeat_S. cbn [repeat brun fst]. apply Hn. unfold bstep. rewrite D. auto. }
  assert (Hd : forall q s, bs_queue s = q -> bs_drop s = Some PDrain ->
     exists k, snd (bstep (fst (brun s (repeat BDropStep k))) BDropStep) = BBad).
  { induction q as [|u q IH]; intros s0 Q D.
    - destruct (Hc (fst (bstep s0 BDropStep))) as [k K]; [unfold bstep; rewrite D, Q; auto|].
      exists (S k). rewrite brun_repeat_S. auto.
    - destruct (IH (fst (bstep s0 BDropStep))) as [k K]; try (unfold bstep; rewrite D, Q; auto; fail).
      exists (S k). rewrite brun_repeat_S. auto. }
  destruct (bs_drop s) as [[]|] eqn:D.
  - destruct (Hd (bs_queue s) (fst (bstep s BDropStep))) as [k K]; try (unfold bstep; rewrite D; auto; fail).
    exists (S k). rewrite brun_repeat_S. auto.
  - eauto.
  - eauto.
  - exists 0. cbn [repeat brun fst]. auto.
Qed.

(** * C33 *)
Lemma cleanup_spares s k c n t : bwf s -> bstep s (BSubscribe c n) = (s, BTrack t false) -> ~ over s t ->
  let s' := fst (bstep s (BCleanup k)) in bstep s' (BSubscribe c n) = (s', BTrack t false) /\ ~ over s' t.
Proof.
  intros W B O. cbn zeta. rewrite over_iff in *.
  assert (L : lookup n (bs_published s) = Some t /\ exists u, get (bs_cons s) c = Some u).
  { unfold bstep in B. destruct (get (bs_cons s) c); [|discriminate]. destruct (lookup n (bs_published s)).
    - injection B as <-. eauto.
    - destruct (bs_chan_closed s); discriminate. }
  destruct L as [L [u C]]. set (s' := fst (bstep s (BCleanup k))).
  assert (X : bs_tracks s' = bs_tracks s /\ bs_cons s' = bs_cons s /\ lookup n (bs_published s') = Some t).
  { unfold s', bstep. destruct (get (bs_tasks s) k) as [v|] eqn:K; auto.
    destruct (nth_error (bs_tracks s) v) as [[m [o|] h]|] eqn:T; auto. bstate.
    destruct (lookup m (bs_published s)) as [t'|] eqn:L'; [destruct (Nat.eqb_spec v t') as [<-|N]|]; bstate; auto.
    - rewrite lookup_remove. destr_if; auto. exfalso. apply O. rewrite L in L'. injection L' as ->. eauto.
    - rewrite lookup_put, lookup_remove. destr_if; auto. rewrite L in L'. auto. }
  destruct X as (X1 & X2 & X3). rewrite X1. split; [|exact O].
  unfold bstep. rewrite X2, C, X3. auto.
Qed.

Lemma cleanups_spare ops s tr ks c n t :
  brun bsys_new ops = (s, tr) -> bstep s (BSubscribe c n) = (s, BTrack t false) -> ~ over s t ->
  let s' := fst (brun s (map BCleanup ks)) in bstep s' (BSubscribe c n) = (s', BTrack t false).
Proof.
  intros H B O. cbn zeta.
  assert (G : let s' := fst (brun s (map BCleanup ks)) in bwf s' /\ bstep s' (BSubscribe c n) = (s', BTrack t false) /\ ~ over s' t).
  { induction ks as [|k ks IH] using rev_ind; cbn zeta in *.
    - cbn [map brun fst]. split; [apply (btr_run _ _ _ H)|auto].
    - rewrite map_app. cbn [map]. rewrite brun_snoc. destruct (brun s (map BCleanup ks)) as [s1 tr1]. cbn [fst] in IH.
      destruct IH as (W & B1 & O1). pose proof (cleanup_spares s1 k c n t W B1 O1) as X. cbn zeta in X.
      pose proof (bwf_step s1 (BCleanup k) W) as W2.
      destruct (bstep s1 (BCleanup k)) as [s2 x]. cbn [fst] in *. split; auto. }
  apply G.
Qed.

Lemma settled_fresh ops s tr c n t s' :
  brun bsys_new ops = (s, tr) -> ~ shut tr -> settled s -> bstep s (BSubscribe c n) = (s', BTrack t false) -> ~ over s t.
Proof.
  intros H N S B O. destruct (btr_run _ _ _ H) as [W R]. apply over_iff in O as (m & o & h & E).
  assert (V : live (bs_prods s) = true).
  { destruct (live (bs_prods s)) eqn:V; auto. exfalso. apply N. apply (r_shut _ _ R). auto. }
  unfold bstep in B. destruct (get (bs_cons s) c); [|discriminate].
  destruct (lookup n (bs_published s)) eqn:L; [|destruct (bs_chan_closed s); discriminate]. injection B as <- <-.
  destruct (w_pub _ W _ _ L) as (e & h' & E'). rewrite E in E'. injection E' as -> <- <-.
  destruct h; [|apply (w_alive _ W) in E; congruence].
  destruct (w_task _ W _ _ _ V L E) as [k K]. specialize (S k). unfold bstep in S. rewrite K, E in S. bstate.
  destruct (lookup n (bs_published s)); [|discriminate]. destruct (Nat.eqb _ _); discriminate.
Qed.

(** * C34 *)
Lemma drop_shuts_last ops s tr p s' x :
  brun bsys_new ops = (s, tr) -> bstep s (BDrop p) = (s', x) -> x <> BBad ->
  (x = BShutdown <-> producers tr = 1%Z) /\ (x = BUnit <-> (1 < producers tr)%Z).
Proof.
  intros H B X. destruct (btr_run _ _ _ H) as [W R]. rewrite (r_prods _ _ R). pose proof (w_cloned _ W) as Wc.
  unfold bstep in B. destruct (get (bs_prods s) p) as [u|] eqn:P; [|injection B as <- <-; congruence].
  pose proof (count_kill _ _ _ P).
  destruct (0 <? bs_cloned s)%Z eqn:C; injection B as <- <-; split; split; intros; try congruence; lia.
Qed.

Record beqv (p : nat) (s1 s2 : bsys) : Prop := {
  e_tracks : bs_tracks s1 = bs_tracks s2; e_pub : bs_published s1 = bs_published s2;
  e_queue : bs_queue s1 = bs_queue s2; e_chan : bs_chan_closed s1 = bs_chan_closed s2;
  e_drop : bs_drop s1 = bs_drop s2; e_flag : bs_flag s1 = bs_flag s2; e_guards : bs_guards s1 = bs_guards s2;
  e_cons : bs_cons s1 = bs_cons s2; e_tasks : bs_tasks s1 = bs_tasks s2;
  e_len : length (bs_prods s1) = length (bs_prods s2);
  e_prods : forall q, q <> p -> get (bs_prods s1) q = get (bs_prods s2) q;
  e_live1 : live (bs_prods s1) = true; e_live2 : live (bs_prods s2) = true }.

Lemma beqv_step p s1 s2 o : about_producer p o = false -> beqv p s1 s2 ->
  snd (bstep s1 o) = snd (bstep s2 o) /\ beqv p (fst (bstep s1 o)) (fst (bstep s2 o)).
Proof.
  intros A E. pose proof E as E0. destruct E as [E1 E2 E3 E4 E5 E6 E7 E8 E9 E10 E11 E12 E13].
  destruct o; cbn [about_producer] in A; try discriminate;
  try match type of A with Nat.eqb ?a ?b = false => apply Nat.eqb_neq in A; pose proof (E11 b (not_eq_sym A)) as GP end;
  unfold bstep, broadcast_insert; rewrite ?GP, <- ?E1, <- ?E2, <- ?E3, <- ?E4, <- ?E5, <- ?E6, <- ?E7, <- ?E8, <- ?E9, ?E12, ?E13;
  repeat (match goal with |- context [match ?x with _ => _ end] =>
            match x with context [match _ with _ => _ end] => fail 1 | _ => destruct x end end;
          bstate; rewrite <- ?E1, <- ?E2, <- ?E9);
  bstate; (split; [reflexivity|]); try exact E0; split; bstate; rewrite <- ?E1, <- ?E2, <- ?E9; auto; try congruence.
  all: rewrite ?app_length, ?live_snoc_tt; auto; try (cbn; lia).
  all: try exact (e_drop _ _ _ E0).
  intros q N. rewrite !get_app, E10. destruct (Nat.eqb _ _); auto.
Qed.

Lemma beqv_run p ops : forall s1 s2, Forall (fun o => about_producer p o = false) ops -> beqv p s1 s2 ->
  snd (brun s1 ops) = snd (brun s2 ops).
Proof.
  induction ops as [|o ops IH]; intros s1 s2 F E; [auto|]. inversion F as [|? ? A F']; subst.
  destruct (beqv_step p s1 s2 o A E) as [X Y]. cbn [brun].
  destruct (bstep s1 o) as [u1 x1], (bstep s2 o) as [u2 x2]. cbn [fst snd] in *. subst x2.
  specialize (IH u1 u2 F' Y). destruct (brun u1 ops), (brun u2 ops). cbn [snd] in *. congruence.
Qed.

Lemma drop_other_silent ops s tr p s' more :
  brun bsys_new ops = (s, tr) -> bstep s (BDrop p) = (s', BUnit) ->
  Forall (fun o => about_producer p o = false) more -> snd (brun s' more) = snd (brun s more).
Proof.
  intros H B F. destruct (btr_run _ _ _ H) as [W R]. pose proof (w_cloned _ W) as Wc.
  symmetry. apply (beqv_run p); auto.
  unfold bstep in B. destruct (get (bs_prods s) p) as [u|] eqn:P; [|discriminate].
  pose proof (count_kill _ _ _ P). pose proof (live_get _ _ _ P).
  destruct (0 <? bs_cloned s)%Z eqn:C; [injection B as <-|discriminate]. bstate. split; bstate; auto.
  - rewrite set_nth_length. auto.
  - intros q N. rewrite get_set_ne; auto.
  - apply count_live_ge. lia.
Qed.

Lemma shutdown_closes ops s tr c n s' t b :
  brun bsys_new ops = (s, tr) -> shut tr -> snd (bstep s BDropStep) = BBad ->
  bstep s (BSubscribe c n) = (s', BTrack t b) -> over s' t.
Proof.
  intros H S D B. destruct (btr_run _ _ _ H) as [W R]. apply (r_shut _ _ R) in S.
  assert (Dn : bs_drop s = None).
  { unfold bstep in D. destruct (bs_drop s) as [[]|]; auto; try discriminate. destruct (bs_queue s); discriminate. }
  pose proof (w_phase _ W S) as Ph. rewrite Dn in Ph. destruct Ph as [Ch _].
  unfold bstep in B. destruct (get (bs_cons s) c); [|discriminate].
  destruct (lookup n (bs_published s)) eqn:L.
  - injection B as <- <- <-. destruct (w_done _ W _ _ S Dn L) as (e & h & E). apply over_iff. eauto.
  - rewrite Ch in B. injection B as <- <- <-. apply over_iff. cbn. rewrite nth_error_snoc, Nat.eqb_refl. eauto.
Qed.

Lemma request_never_none ops s tr p : brun bsys_new ops = (s, tr) -> snd (bstep s (BRequest p)) <> BRequested (AOk None).
Proof.
  intros H. destruct (btr_run _ _ _ H) as [W R]. unfold bstep. destruct (get (bs_prods s) p) eqn:P; [|discriminate].
  destruct (bs_queue s); [|discriminate]. destruct (w_open _ W (live_get _ _ _ P)) as [_ ->]. discriminate.
Qed.
