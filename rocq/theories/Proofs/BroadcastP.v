(** Invariants of the broadcast system. *)
From Coq Require Import NArith ZArith List Lia Bool.
From Coq Require Import Init.Byte Strings.Byte.
From Coq Require Import ZifyBool ZifyNat ZifyN.
From Verif.Model Require Import Base ErrorCode Stream Frame FrameSys Map BroadcastSys.
From Verif.Spec Require Import BroadcastSpec.
From Verif.Proofs Require Import TableP MapP.
Import ListNotations.
Open Scope nat_scope.

Lemma brun_snoc s ops o :
  brun s (ops ++ [o]) =
  let (s1, tr) := brun s ops in let (s2, x) := bstep s1 o in (s2, tr ++ [(o, x)]).
Proof.
  revert s; induction ops as [|o1 ops IH]; intros s; cbn [brun app].
  - destruct (bstep s o); auto.
  - destruct (bstep s o1) as [s1 x1]. rewrite IH. destruct (brun s1 ops) as [s2 tr].
    destruct (bstep s2 o); auto.
Qed.
Lemma brun_app s ops1 ops2 :
  brun s (ops1 ++ ops2) =
  let (s1, tr1) := brun s ops1 in let (s2, tr2) := brun s1 ops2 in (s2, tr1 ++ tr2).
Proof.
  revert s; induction ops1 as [|o1 ops IH]; intros s; cbn [brun app].
  - destruct (brun s ops2); auto.
  - destruct (bstep s o1) as [s1 x1]. rewrite IH. destruct (brun s1 ops) as [s2 tr].
    destruct (brun s2 ops2); auto.
Qed.

Lemma nth_error_snoc {A} (l : list A) x n :
  nth_error (l ++ [x]) n = if Nat.eqb n (length l) then Some x else nth_error l n.
Proof.
  destruct (Nat.eqb_spec n (length l)) as [->|N].
  - rewrite nth_error_app2, Nat.sub_diag by lia. auto.
  - destruct (Nat.lt_ge_cases n (length l)).
    + rewrite nth_error_app1; auto.
    + rewrite !(proj2 (nth_error_None _ _)); auto. rewrite app_length; cbn; lia.
Qed.
Lemma nth_error_end o t l u :
  nth_error (end_track o t l) u =
  if Nat.eqb u t then match nth_error l t with Some (Track n None h) => Some (Track n (Some o) h) | x => x end
  else nth_error l u.
Proof.
  unfold end_track. destruct (Nat.eqb_spec u t) as [->|N].
  - destruct (nth_error l t) as [[n [e|] h]|] eqn:E; auto.
    apply nth_error_set_eq. apply nth_error_Some. congruence.
  - destruct (nth_error l t) as [[n [e|] h]|] eqn:E; auto. rewrite nth_error_set_ne; auto.
Qed.
Lemma nth_error_hold t l u :
  nth_error (hold_track t l) u =
  if Nat.eqb u t then match nth_error l t with Some (Track n e _) => Some (Track n e true) | x => x end
  else nth_error l u.
Proof.
  unfold hold_track. destruct (Nat.eqb_spec u t) as [->|N].
  - destruct (nth_error l t) as [[n e h]|] eqn:E; auto.
    apply nth_error_set_eq. apply nth_error_Some. congruence.
  - destruct (nth_error l t) as [[n e h]|] eqn:E; auto. rewrite nth_error_set_ne; auto.
Qed.
Lemma end_length o t l : length (end_track o t l) = length l.
Proof. unfold end_track. destruct (nth_error l t) as [[n [e|] h]|]; auto. apply set_nth_length. Qed.
Lemma hold_length t l : length (hold_track t l) = length l.
Proof. unfold hold_track. destruct (nth_error l t) as [[n e h]|]; auto. apply set_nth_length. Qed.
Lemma map_set_nth {A B} (f : A -> B) n x l y :
  nth_error l n = Some y -> f x = f y -> map f (set_nth n x l) = map f l.
Proof. revert n; induction l; intros [|n] H E; cbn in *; try congruence. f_equal; eauto. Qed.
Lemma end_names o t l : map tk_name (end_track o t l) = map tk_name l.
Proof.
  unfold end_track. destruct (nth_error l t) as [[n [e|] h]|] eqn:E; auto.
  eapply map_set_nth; eauto.
Qed.
Lemma hold_names t l : map tk_name (hold_track t l) = map tk_name l.
Proof.
  unfold hold_track. destruct (nth_error l t) as [[n e h]|] eqn:E; auto.
  eapply map_set_nth; eauto.
Qed.

Record bwf (s : bsys) : Prop := {
  w_queue : forall t, In t (bs_queue s) -> exists n, nth_error (bs_tracks s) t = Some (Track n None false);
  w_nodup : NoDup (bs_queue s);
  w_unheld : forall t n, nth_error (bs_tracks s) t = Some (Track n None false) -> In t (bs_queue s);
  w_pub : forall n t, lookup n (bs_published s) = Some t -> exists e h, nth_error (bs_tracks s) t = Some (Track n e h);
  w_cloned : bs_cloned s = (Z.of_nat (count (bs_prods s)) - 1)%Z;
  w_open : live (bs_prods s) = true -> bs_drop s = None /\ bs_chan_closed s = false;
  w_phase : live (bs_prods s) = false ->
    match bs_drop s with
    | Some PClose => bs_chan_closed s = false
    | Some PDrain => bs_chan_closed s = true
    | _ => bs_chan_closed s = true /\ bs_queue s = []
    end;
  w_done : forall n t, live (bs_prods s) = false -> bs_drop s = None -> lookup n (bs_published s) = Some t ->
    exists e h, nth_error (bs_tracks s) t = Some (Track n (Some e) h);
  w_task : forall n t e, live (bs_prods s) = true -> lookup n (bs_published s) = Some t ->
    nth_error (bs_tracks s) t = Some (Track n e true) -> exists k, get (bs_tasks s) k = Some t;
  w_alive : forall t n e, live (bs_prods s) = true -> nth_error (bs_tracks s) t = Some (Track n e false) -> e = None;
  w_tasks : forall k t, get (bs_tasks s) k = Some t -> t < length (bs_tracks s) }.

Ltac bstate := unfold broadcast_insert, bwith_tracks, bwith_published, bwith_queue, bwith_chan, bwith_cloned, bwith_prods,
  bwith_drop, bwith_flag, bwith_guards, bwith_cons, bwith_tasks in *;
  cbn [bs_tracks bs_published bs_queue bs_chan_closed bs_cloned bs_prods bs_drop bs_flag bs_guards bs_cons bs_tasks fst snd] in *.

Lemma bwf_new : bwf bsys_new.
Proof.
  split; cbn; try tauto; try discriminate; try constructor; auto.
  - intros [|t]; cbn; discriminate.
  - intros [|t]; cbn; discriminate.
  - intros [|k]; cbn; discriminate.
Qed.

Lemma nth_error_len {A} (l : list A) n x : nth_error l n = Some x -> n < length l.
Proof. intros H. apply nth_error_Some. congruence. Qed.

Lemma live_snoc_tt (t : table unit) : live (t ++ [Some tt]) = true.
Proof. rewrite live_count, count_app. cbn. replace (count t + 1) with (S (count t)) by lia. auto. Qed.
Lemma live_get {A} (t : table A) h a : get t h = Some a -> live t = true.
Proof.
  intros H. destruct (live t) eqn:E; auto. rewrite (live_false_get t h E) in H. discriminate.
Qed.

(** A published track keeps a task through the addition of one. *)
Lemma get_snoc_old {A} (t : table A) x k a : get t k = Some a -> get (t ++ [x]) k = Some a.
Proof. intros H. rewrite get_app. pose proof (get_lt _ _ _ H). destruct (Nat.eqb_spec k (length t)); auto; lia. Qed.
Lemma get_snoc_new {A} (t : table A) x : get (t ++ [x]) (length t) = x.
Proof. rewrite get_app, Nat.eqb_refl. auto. Qed.

Ltac destr_if := match goal with
  | H : context [Nat.eqb ?a ?b] |- _ => destruct (Nat.eqb_spec a b); [subst|]
  | H : context [str_eqb ?a ?b] |- _ => destruct (str_eqb_spec a b); [subst|]
  | |- context [Nat.eqb ?a ?b] => destruct (Nat.eqb_spec a b); [subst|]
  | |- context [str_eqb ?a ?b] => destruct (str_eqb_spec a b); [subst|]
  end.

Lemma NoDup_snoc {A} (l : list A) x : NoDup l -> ~ In x l -> NoDup (l ++ [x]).
Proof.
  intros N H. rewrite <- (rev_involutive (l ++ [x])). apply NoDup_rev. rewrite rev_app_distr. cbn.
  constructor; [rewrite <- in_rev; auto|apply NoDup_rev; auto].
Qed.

Ltac too_long := match goal with
  | K : nth_error ?l (length ?l) = Some _ |- _ => exfalso; apply nth_error_len in K; lia
  | K : nth_error ?l ?n = Some _, N : ?n <> _ |- _ => fail
  end.

Lemma bwf_subscribe s c n : bwf s -> bwf (fst (bstep s (BSubscribe c n))).
Proof.
  intros W. unfold bstep. destruct (get (bs_cons s) c); [|exact W].
  destruct (lookup n (bs_published s)) as [t|] eqn:L; [exact W|].
  destruct W as [Wq Wn Wu Wp Wc Wo Wph Wd Wt Wa Wts].
  destruct (bs_chan_closed s) eqn:C; bstate; split; bstate; rewrite ?C; auto; intros *; rewrite ?nth_error_snoc, ?lookup_put.
  - intros I. destruct (Wq _ I) as [m E]. exists m. pose proof (nth_error_len _ _ _ E).
    destr_if; auto; lia.
  - intros E. destr_if; [discriminate|]. eauto.
  - intros E. destr_if.
    + injection E as <-. rewrite Nat.eqb_refl. eauto.
    + destruct (Wp _ _ E) as (e & h & K). destr_if; [too_long|eauto].
  - intros V Dn E. destr_if.
    + injection E as <-. rewrite Nat.eqb_refl. eauto.
    + destruct (Wd _ _ V Dn E) as (e & h & K). destr_if; [too_long|eauto].
  - intros V E K. destruct (Wo V). congruence.
  - intros V E. destruct (Wo V). congruence.
  - rewrite app_length. cbn. intros E. apply Wts in E. lia.
  - rewrite in_app_iff. cbn. intros [I|[<-|[]]].
    + destruct (Wq _ I) as [m E]. exists m. destr_if; auto; too_long.
    + exists n. rewrite Nat.eqb_refl. auto.
  - apply NoDup_snoc; auto. intros I. destruct (Wq _ I) as [m E]. too_long.
  - intros E. rewrite in_app_iff. cbn. destr_if; auto. left. eauto.
  - intros E. destr_if.
    + injection E as <-. rewrite Nat.eqb_refl. eauto.
    + destruct (Wp _ _ E) as (e & h & K). destr_if; [too_long|eauto].
  - intros V. specialize (Wph V). destruct (bs_drop s) as [[]|]; auto; destruct Wph; congruence.
  - intros V Dn E. specialize (Wph V). rewrite Dn in Wph. destruct Wph; congruence.
  - intros V E K. destr_if.
    + destr_if; congruence.
    + destr_if; try congruence; eauto.
  - intros V E. destr_if; try congruence; eauto.
  - rewrite app_length. cbn. intros E. apply Wts in E. lia.
Qed.

Lemma bwf_request s p : bwf s -> bwf (fst (bstep s (BRequest p))).
Proof.
  intros W. unfold bstep. destruct (get (bs_prods s) p) eqn:P; [|exact W].
  destruct (bs_queue s) as [|t q] eqn:Q; [exact W|].
  destruct W as [Wq Wn Wu Wp Wc Wo Wph Wd Wt Wa Wts]. rewrite Q in *.
  inversion Wn as [|? ? Nt Nq]; subst. destruct (Wq t (or_introl eq_refl)) as [m Em].
  bstate; split; bstate; auto; intros *; rewrite ?nth_error_hold, ?Em.
  - intros I. destruct (Wq t0 (or_intror I)) as [k E]. destr_if; [tauto|eauto].
  - intros E. destr_if; [discriminate|]. apply Wu in E as [->|]; [congruence|auto].
  - intros E. destruct (Wp _ _ E) as (e & h & K). destr_if; [|eauto]. exists None, true. congruence.
  - intros V. apply live_get in P. congruence.
  - intros V. apply live_get in P. congruence.
  - intros V E K. destr_if.
    + eexists. apply get_snoc_new.
    + destruct (Wt _ _ _ V E K) as [k G]. exists k. apply get_snoc_old. auto.
  - intros V E. destr_if; [discriminate|eauto].
  - rewrite get_app, hold_length. destr_if; [intros [= <-]; eapply nth_error_len; eauto|eauto].
Qed.

Lemma bwf_new_track s n : bwf s -> bwf (bwith_tracks s (bs_tracks s ++ [Track n None true])).
Proof.
  intros [Wq Wn Wu Wp Wc Wo Wph Wd Wt Wa Wts]. bstate. split; bstate; auto; intros *; rewrite ?nth_error_snoc.
  - intros I. destruct (Wq _ I) as [m E]. exists m. destr_if; auto; too_long.
  - intros E. destr_if; [discriminate|]. eauto.
  - intros E. destruct (Wp _ _ E) as (e & h & K). destr_if; [too_long|eauto].
  - intros V Dn E. destruct (Wd _ _ V Dn E) as (e & h & K). destr_if; [too_long|eauto].
  - intros V E K. destr_if; [|eauto]. destruct (Wp _ _ E) as (? & ? & K'). too_long.
  - intros V E. destr_if; [discriminate|eauto].
  - rewrite app_length. cbn. intros E. apply Wts in E. lia.
Qed.

Lemma bwf_insert s t n e h : bwf s -> live (bs_prods s) = true -> nth_error (bs_tracks s) t = Some (Track n e h) ->
  bwf (fst (broadcast_insert t n s)).
Proof.
  intros [Wq Wn Wu Wp Wc Wo Wph Wd Wt Wa Wts] V T. bstate.
  split; bstate; auto; intros *; rewrite ?lookup_put.
  - intros E. destr_if; [|eauto]. injection E as <-. eauto.
  - congruence.
  - intros _ E K. destr_if.
    + injection E as <-. eexists. apply get_snoc_new.
    + destruct (Wt _ _ _ V E K) as [k G]. exists k. apply get_snoc_old. auto.
  - rewrite get_app. destr_if; [intros [= <-]; eapply nth_error_len; eauto|eauto].
Qed.

Lemma bwf_cleanup s k : bwf s -> bwf (fst (bstep s (BCleanup k))).
Proof.
  intros W. unfold bstep. destruct (get (bs_tasks s) k) as [t|] eqn:K; [|exact W].
  destruct (nth_error (bs_tracks s) t) as [[n [o|] h]|] eqn:T; try exact W.
  pose proof W as W0. destruct W as [Wq Wn Wu Wp Wc Wo Wph Wd Wt Wa Wts].
  assert (TS : forall k0 u, get (set_nth k None (bs_tasks s)) k0 = Some u -> get (bs_tasks s) k0 = Some u).
  { intros k0 u. destruct (Nat.eq_dec k k0) as [->|N]; [rewrite (get_set_eq _ _ _ _ K)|rewrite get_set_ne by auto]; auto. discriminate. }
  assert (KT : forall m u e, live (bs_prods s) = true -> u <> t -> lookup m (bs_published s) = Some u ->
     nth_error (bs_tracks s) u = Some (Track m e true) -> exists k0, get (set_nth k None (bs_tasks s)) k0 = Some u).
  { intros m u e V N E X. destruct (Wt _ _ _ V E X) as [k0 G]. exists k0. rewrite get_set_ne; auto. congruence. }
  bstate. destruct (lookup n (bs_published s)) as [t'|] eqn:L; [destruct (Nat.eqb_spec t t') as [<-|N]|]; bstate.
  - split; bstate; auto; intros *; rewrite ?lookup_remove; eauto.
    + destr_if; [discriminate|eauto].
    + intros V Dn. destr_if; [discriminate|eauto].
    + intros V. destr_if; [discriminate|]. intros E X. eapply KT; eauto. intros ->.
      apply Wp in E as (? & ? & E). congruence.
  - split; bstate; auto; intros *; rewrite ?lookup_put, ?lookup_remove; eauto.
    + destr_if; [intros [= <-]; eauto|]. eauto.
    + intros V Dn. destr_if; [intros [= <-]; eauto|]. eauto.
    + intros V E X. assert (E' : lookup n0 (bs_published s) = Some t0) by (destr_if; congruence).
      eapply KT; eauto. intros ->. destruct (Wp _ _ E') as (? & ? & Y). rewrite Y in T. injection T as -> _ _. congruence.
  - split; bstate; auto; intros *; eauto.
    intros V E X. eapply KT; eauto. intros ->. rewrite X in T. injection T as -> _ _. congruence.
Qed.

Lemma bwf_end s t o : bwf s -> bwf (fst (bstep s (BEnd t o))).
Proof.
  intros W. unfold bstep. destruct (nth_error (bs_tracks s) t) as [[n [e|] [|]]|] eqn:T; try exact W.
  destruct W as [Wq Wn Wu Wp Wc Wo Wph Wd Wt Wa Wts].
  bstate; split; bstate; auto; intros *; rewrite ?nth_error_end, ?T.
  - intros I. destruct (Wq _ I) as [m E]. destr_if; [congruence|eauto].
  - destr_if; [discriminate|eauto].
  - intros E. destruct (Wp _ _ E) as (e & h & K). destr_if; [|eauto]. exists (Some o), true. congruence.
  - intros V Dn E. destruct (Wd _ _ V Dn E) as (e & h & K). destr_if; [|eauto]. exists o, true. congruence.
  - intros V E K. destr_if; [|eauto]. injection K as <- _. eauto.
  - intros V K. destr_if; [discriminate|eauto].
  - rewrite end_length. eauto.
Qed.

Lemma count_live_ge {A} (t : table A) : live t = true <-> 0 < count t.
Proof. rewrite live_count. destruct (Nat.eqb_spec (count t) 0); cbn; split; try congruence; lia. Qed.

Lemma bwf_drop s p : bwf s -> bwf (fst (bstep s (BDrop p))).
Proof.
  intros W. unfold bstep. destruct (get (bs_prods s) p) as [u|] eqn:P; [|exact W].
  destruct W as [Wq Wn Wu Wp Wc Wo Wph Wd Wt Wa Wts].
  pose proof (live_get _ _ _ P) as V0. destruct (Wo V0) as [Dn Ch]. pose proof (count_kill _ _ _ P) as CK.
  destruct (0 <? bs_cloned s)%Z eqn:C.
  - assert (V : live (set_nth p None (bs_prods s)) = true) by (apply count_live_ge; lia).
    bstate; split; bstate; auto; intros *; try congruence; eauto. lia.
  - assert (V : live (set_nth p None (bs_prods s)) = false).
    { destruct (live (set_nth p None (bs_prods s))) eqn:V; auto. apply count_live_ge in V. lia. }
    bstate; split; bstate; auto; intros *; try congruence; eauto. lia.
Qed.

Lemma bwf_drop_step s : bwf s -> bwf (fst (bstep s BDropStep)).
Proof.
  intros W. unfold bstep. destruct (bs_drop s) as [ph|] eqn:Dn; [|exact W].
  destruct W as [Wq Wn Wu Wp Wc Wo Wph Wd Wt Wa Wts].
  assert (V : live (bs_prods s) = false).
  { destruct (live (bs_prods s)); auto. destruct Wo; auto. congruence. }
  specialize (Wph V). rewrite Dn in Wph. destruct ph; [|destruct (bs_queue s) as [|t q] eqn:Q|].
  - bstate; split; bstate; auto; intros *; try congruence; eauto.
  - bstate; split; bstate; auto; intros *; rewrite ?Q; try congruence; eauto.
  - inversion Wn as [|? ? Nt Nq]; subst. destruct (Wq t (or_introl eq_refl)) as [m Em].
    bstate; split; bstate; auto; intros *; rewrite ?nth_error_end, ?Em; try congruence; eauto.
    + intros I. destruct (Wq _ (or_intror I)) as [k E]. destr_if; [tauto|eauto].
    + destr_if; [discriminate|]. intros E. apply Wu in E as [->|]; [congruence|auto].
    + intros E. destruct (Wp _ _ E) as (e & h & K). destr_if; [|eauto]. exists (Some (Failed Cancel)), false. congruence.
    + rewrite Dn. auto.
    + rewrite end_length. eauto.
  - bstate; split; bstate; auto; intros *; cbn; try congruence; eauto.
Qed.

Lemma bwf_step s o : bwf s -> bwf (fst (bstep s o)).
Proof.
  intros W. destruct o.
  - apply bwf_subscribe; auto.
  - apply bwf_request; auto.
  - unfold bstep. destruct (get (bs_prods s) p) eqn:P; [|exact W]. cbn [fst].
    eapply bwf_insert; [apply bwf_new_track; auto|apply live_get in P; auto|].
    cbn. rewrite nth_error_snoc, Nat.eqb_refl. reflexivity.
  - apply bwf_new_track; auto.
  - unfold bstep. destruct (get (bs_prods s) p) eqn:P; [|exact W].
    destruct (nth_error (bs_tracks s) t) as [[n e h]|] eqn:T; [|exact W]. cbn [tk_name].
    pose proof (bwf_insert s t n e h W (live_get _ _ _ P) T) as X.
    destruct (broadcast_insert t n s). exact X.
  - apply bwf_end; auto.
  - apply bwf_cleanup; auto.
  - unfold bstep. destruct (get (bs_prods s) p); [|exact W]. destruct W; bstate; split; bstate; auto.
  - unfold bstep. destruct (get (bs_prods s) p) eqn:P; [|exact W].
    destruct W as [Wq Wn Wu Wp Wc Wo Wph Wd Wt Wa Wts]. pose proof (live_get _ _ _ P) as V.
    bstate; split; bstate; auto; intros *; rewrite ?live_snoc_tt; try congruence; eauto.
    rewrite count_app. cbn. lia.
  - apply bwf_drop; auto.
  - apply bwf_drop_step; auto.
  - unfold bstep. destruct (get (bs_prods s) p); [|exact W]. destruct W; bstate; split; bstate; auto.
  - unfold bstep. destruct (get (bs_prods s) p); [|exact W]. destruct W; bstate; split; bstate; auto.
  - unfold bstep. destruct (bs_guards s); [exact W|]. destruct W; bstate; split; bstate; auto.
  - unfold bstep. destruct (get (bs_cons s) c); [|exact W]. destruct W; bstate; split; bstate; auto.
  - unfold bstep. destruct (get (bs_cons s) c); [|exact W]. destruct W; bstate; split; bstate; auto.
  - unfold bstep. destruct (get (bs_cons s) c); exact W.
  - unfold bstep. destruct (nth_error (bs_tracks s) t); exact W.
Qed.

Lemma bwf_run s ops : bwf s -> bwf (fst (brun s ops)).
Proof.
  intros W. induction ops as [|o ops IH] using rev_ind; [exact W|].
  rewrite brun_snoc. destruct (brun s ops) as [s1 tr]. pose proof (bwf_step s1 o IH) as X.
  destruct (bstep s1 o). exact X.
Qed.
