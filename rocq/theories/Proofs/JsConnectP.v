(** Proofs about a connection that reconnects by itself. *)
From Coq Require Import NArith List Bool Arith Lia.
From Verif.Model Require Import JsConnect.
From Verif.Spec Require Import JsConnectSpec.
Import ListNotations.
Open Scope nat_scope.

Lemma run_app : forall f ops1 ops2 s, jc_run f s (ops1 ++ ops2) =
  let (s1, tr1) := jc_run f s ops1 in let (s2, tr2) := jc_run f s1 ops2 in (s2, tr1 ++ tr2).
Proof.
  induction ops1 as [|o ops1 IH]; intros ops2 s; cbn [app jc_run].
  - destruct (jc_run f s ops2); reflexivity.
  - destruct (jc_step f s o) as [s1 x]. rewrite IH. destruct (jc_run f s1 ops1) as [s2 tr1]. destruct (jc_run f s2 ops2); reflexivity.
Qed.
Lemma run_split : forall f ops s s' a o x c, jc_run f s ops = (s', a ++ (o, x) :: c) ->
  exists ops1 ops2 s1 s2, ops = ops1 ++ o :: ops2 /\ jc_run f s ops1 = (s1, a) /\ jc_step f s1 o = (s2, x) /\ jc_run f s2 ops2 = (s', c).
Proof.
  induction ops as [|o' ops IH]; intros s s' a o x c H; cbn [jc_run] in H.
  - destruct a; discriminate.
  - destruct (jc_step f s o') as [s1 x'] eqn:E. destruct (jc_run f s1 ops) as [s2 tr] eqn:E2.
    destruct a as [|e a]; cbn [app] in H.
    + injection H as -> -> -> ->. exists [], ops, s, s1. repeat split; auto.
    + injection H as -> <- ->. destruct (IH _ _ _ _ _ _ E2) as (p & q & s3 & s4 & -> & R & X & Y).
      exists (o' :: p), q, s3, s4. split; [reflexivity|]. split; [|auto]. cbn [jc_run]. rewrite E, R. reflexivity.
Qed.

(** ** Lists *)
Lemma ph_len : forall l k p, length (ph_set l k p) = length l.
Proof. induction l as [|[u q] l IH]; intros [|k] p; cbn; auto. Qed.
Lemma ph_same : forall l k p x, nth_error l k = Some x -> nth_error (ph_set l k p) k = Some (fst x, p).
Proof. induction l as [|[u q] l IH]; intros [|k] p x H; cbn in *; try discriminate; [now injection H as <-|auto]. Qed.
Lemma ph_other : forall l k p i, i <> k -> nth_error (ph_set l k p) i = nth_error l i.
Proof. induction l as [|[u q] l IH]; intros [|k] p [|i] H; cbn; auto; try congruence. Qed.
Lemma ph_fst : forall l k p, map fst (ph_set l k p) = map fst l.
Proof. induction l as [|[u q] l IH]; intros [|k] p; cbn; auto. now rewrite IH. Qed.
Lemma tm_same : forall l i, nth_error (tm_set l i) i = match nth_error l i with Some _ => Some None | None => None end.
Proof. induction l as [|x l IH]; intros [|i]; cbn; auto. Qed.
Lemma tm_other : forall l i j, j <> i -> nth_error (tm_set l i) j = nth_error l j.
Proof. induction l as [|x l IH]; intros [|i] [|j] H; cbn; auto; try congruence. Qed.

(** ** What the log says of an attempt *)
Lemma in_snoc : forall (A : Type) (x y : A) l, In x (l ++ [y]) <-> In x l \/ x = y.
Proof. intros. rewrite in_app_iff. cbn. intuition congruence. Qed.
Lemma happened_snoc : forall tr o x o', happened (tr ++ [(o, x)]) o' <-> happened tr o' \/ (o = o' /\ x <> None).
Proof.
  intros. unfold happened. split.
  - intros (e & I). apply in_snoc in I. destruct I as [I|I]; [left; eauto|right]. injection I as -> <-. split; [reflexivity|discriminate].
  - intros [(e & I)|[-> N]]; [exists e; apply in_snoc; auto|]. destruct x as [e|]; [|congruence]. exists e. apply in_snoc. auto.
Qed.
Lemma shut_snoc : forall tr o x k, shut (tr ++ [(o, x)]) k <-> shut tr k \/ (exists evs, x = Some evs /\ In (EShut k) evs).
Proof.
  intros. unfold shut. split.
  - intros (o' & e & I & J). apply in_snoc in I. destruct I as [I|I]; [left; eauto|right]. injection I as -> <-. eauto.
  - intros [(o' & e & I & J)|(e & -> & J)]; [exists o', e|exists o, e]; rewrite in_snoc; auto.
Qed.
Lemma fails_snoc : forall tr e, fails (tr ++ [e]) = fails1 (fails tr) e.
Proof. intros. unfold fails. now rewrite fold_left_app. Qed.
Lemma tries_snoc : forall tr e, tries (tr ++ [e]) = tries tr ++ tries1 e.
Proof. intros. unfold tries. rewrite flat_map_app. cbn. now rewrite app_nil_r. Qed.
Lemma url_snoc : forall tr o x, url_of (tr ++ [(o, x)]) = match o with JcUrl u => u | _ => url_of tr end.
Proof. intros. unfold url_of. rewrite fold_left_app. cbn. destruct o; reflexivity. Qed.
Lemma closed_snoc : forall tr o x, was_closed (tr ++ [(o, x)]) <-> was_closed tr \/ o = JcClose.
Proof.
  intros. unfold was_closed. split.
  - intros (y & I). apply in_snoc in I. destruct I as [I|I]; [left; eauto|right; congruence].
  - intros [(y & I)| -> ]; [exists y|exists x]; rewrite in_snoc; auto.
Qed.

Definition quiet (tr : jclog) (k : nat) : Prop :=
  ~ happened tr (JcFailed k) /\ ~ happened tr (JcLost k) /\ ~ happened tr (JcGone k).
Definition told (tr : jclog) (k : nat) (p : option phase) : Prop :=
  match p with
  | None | Some PTry => quiet tr k /\ ~ happened tr (JcConnected k) /\ ~ shut tr k
  | Some POpen => quiet tr k /\ happened tr (JcConnected k) /\ ~ shut tr k
  | Some PShut => quiet tr k /\ happened tr (JcConnected k) /\ shut tr k
  | Some POver => (happened tr (JcFailed k) /\ ~ happened tr (JcConnected k)) \/
                  (happened tr (JcConnected k) /\ (happened tr (JcLost k) \/ happened tr (JcGone k)))
  end.
Definition about (o : jcop) (x : jcout) (k : nat) : Prop :=
  o = JcConnected k \/ o = JcFailed k \/ o = JcLost k \/ o = JcGone k \/ (exists evs, x = Some evs /\ In (EShut k) evs).
Lemma told_other : forall tr o x k p, told tr k p -> x = None \/ ~ about o x k -> told (tr ++ [(o, x)]) k p.
Proof.
  intros tr o x k p T A.
  assert (N : forall o', happened (tr ++ [(o, x)]) o' -> (o' = JcConnected k \/ o' = JcFailed k \/ o' = JcLost k \/ o' = JcGone k) -> happened tr o').
  { intros o' H Q. apply happened_snoc in H. destruct H as [H|[-> H]]; [exact H|]. exfalso. destruct A as [A|A]; [exact (H A)|]. apply A. unfold about. tauto. }
  assert (M : forall o', happened tr o' -> happened (tr ++ [(o, x)]) o') by (intros; apply happened_snoc; auto).
  assert (Z : shut (tr ++ [(o, x)]) k -> shut tr k).
  { intros H. apply shut_snoc in H. destruct H as [H|(e & -> & H)]; [exact H|]. exfalso. destruct A as [A|A]; [discriminate|]. apply A. unfold about. do 4 right. eauto. }
  assert (W : shut tr k -> shut (tr ++ [(o, x)]) k) by (intros; apply shut_snoc; auto).
  unfold told, quiet in *. assert (N1 := fun H => N _ H (or_introl eq_refl)).
  assert (N2 := fun H => N (JcFailed k) H (or_intror (or_introl eq_refl))).
  assert (N3 := fun H => N (JcLost k) H (or_intror (or_intror (or_introl eq_refl)))).
  assert (N4 := fun H => N (JcGone k) H (or_intror (or_intror (or_intror eq_refl)))).
  assert (M1 := M (JcConnected k)). assert (M2 := M (JcFailed k)). assert (M3 := M (JcLost k)). assert (M4 := M (JcGone k)). clear N M A.
  destruct p as [[]|]; tauto.
Qed.

Definition phase_of (l : list (nat * phase)) (k : nat) : option phase := option_map snd (nth_error l k).

Record ginv (f : jconf) (tr : jclog) (s : jconn) : Prop := GInv {
  g_delay : jf_reload f = true -> jc_delay s = backoff f (fails tr);
  g_tries : tries tr = combine (seq 0 (length (jc_att s))) (map fst (jc_att s));
  g_told : forall k, told tr k (phase_of (jc_att s) k);
  g_url : url_of tr = jc_url s;
  g_dead : was_closed tr <-> jc_dead s = true;
  g_next : jf_reload f = true -> jc_dead s = false -> forall u, jc_url s = Some u ->
    exists p l, jc_att s = l ++ [(u, p)] /\
      (p = PTry \/ p = POpen \/ happened tr (JcGone (length l)) \/ exists i t, nth_error (jc_timers s) i = Some (Some t) /\ jc_tick s < t) }.

Lemma backoff_next : forall f n, N.min (backoff f n * 2) (jf_max f) = backoff f (S n).
Proof.
  intros f n. unfold backoff. destruct n as [|n].
  - cbn [N.of_nat]. change (2 ^ 1)%N with 2%N. reflexivity.
  - rewrite !Nat2N.inj_succ, !N.pow_succ_r'. set (x := (2 ^ N.of_nat n)%N). lia.
Qed.

Lemma combine_snoc : forall (l : list (nat * phase)) u p, combine (seq 0 (length (l ++ [(u, p)]))) (map fst (l ++ [(u, p)])) =
  combine (seq 0 (length l)) (map fst l) ++ [(length l, u)].
Proof.
  intros l u p. rewrite app_length, Nat.add_1_r, seq_S, map_app. cbn [map fst].
  assert (G : forall (a b : list nat) x y, length a = length b -> combine (a ++ [x]) (b ++ [y]) = combine a b ++ [(x, y)]).
  { induction a as [|? ? IH]; destruct b; cbn; intros; try lia; auto. rewrite IH; auto. }
  apply G. now rewrite seq_length, map_length.
Qed.

Lemma phase_same : forall l k p q, phase_of l k = Some q -> phase_of (ph_set l k p) k = Some p.
Proof. unfold phase_of. intros l k p q H. destruct (nth_error l k) as [x|] eqn:E; [|discriminate]. rewrite (ph_same _ _ _ _ E). reflexivity. Qed.
Lemma phase_other : forall l k p i, i <> k -> phase_of (ph_set l k p) i = phase_of l i.
Proof. unfold phase_of. intros. now rewrite ph_other. Qed.
Lemma phase_app : forall l u p k, phase_of (l ++ [(u, p)]) k = if k =? length l then Some p else phase_of l k.
Proof.
  intros. unfold phase_of. destruct (Nat.eqb_spec k (length l)) as [->|Q].
  - rewrite nth_error_app2, Nat.sub_diag by lia. reflexivity.
  - destruct (Nat.lt_ge_cases k (length l)) as [L|L]; [now rewrite nth_error_app1|].
    rewrite nth_error_app2 by lia. destruct (k - length l) as [|[|n]] eqn:E; [lia| |]; (rewrite (proj2 (nth_error_None l k)) by lia); reflexivity.
Qed.
Lemma phase_end : forall l, phase_of l (length l) = None.
Proof. intros. unfold phase_of. rewrite (proj2 (nth_error_None _ _)) by lia. reflexivity. Qed.

(** The last element after a change of phase. *)
Lemma ph_set_snoc : forall l u p k q, ph_set (l ++ [(u, p)]) k q =
  if k =? length l then l ++ [(u, q)] else ph_set l k q ++ [(u, p)].
Proof.
  induction l as [|[v r] l IH]; intros u p [|k] q; cbn; auto.
  rewrite IH. destruct (k =? length l); reflexivity.
Qed.

(** ** The effect *)
Definition shuts (e : list jev) : list nat := flat_map (fun v => match v with EShut k => [k] | _ => [] end) e.
Lemma shuts_in : forall e k, In k (shuts e) <-> In (EShut k) e.
Proof.
  intros e k. unfold shuts. rewrite in_flat_map. split.
  - intros (v & I & J). destruct v; cbn in J; try tauto. destruct J as [->|[]]. exact I.
  - intros I. exists (EShut k). cbn. auto.
Qed.

(** Either nothing is closed, or it is the established connection, which was open. *)
Lemma cleanup_cases : forall s s1 e, jc_cleanup s = (s1, e) ->
  jc_url s1 = jc_url s /\ jc_tick s1 = jc_tick s /\ jc_dead s1 = jc_dead s /\ jc_delay s1 = jc_delay s /\ jc_timers s1 = jc_timers s /\
  ((e = [] /\ jc_att s1 = jc_att s) \/ exists k, e = [EShut k] /\ jc_est s = Some k /\ ph_of s k = Some POpen /\ jc_att s1 = ph_set (jc_att s) k PShut) /\
  (jc_url s <> None -> jc_est s1 = None /\ jc_status s1 = JDisconnected).
Proof.
  intros s s1 e H. unfold jc_cleanup in H. destruct (jc_url s) eqn:U; [|injection H as <- <-; rewrite U; repeat split; auto; congruence].
  destruct (jc_est s) as [k|] eqn:E; [destruct (ph_of s k) as [[]|] eqn:P|]; injection H as <- <-; cbn;
    repeat (split; [now rewrite ?U|]); try (split; [|now auto]); auto.
  right. exists k. auto.
Qed.

Lemma told_cleanup : forall s s1 e tr o e', jc_cleanup s = (s1, e) -> (forall k, told tr k (phase_of (jc_att s) k)) ->
  (forall k, o <> JcConnected k /\ o <> JcFailed k /\ o <> JcLost k /\ o <> JcGone k) -> shuts e' = shuts e ->
  forall k, told (tr ++ [(o, Some e')]) k (phase_of (jc_att s1) k).
Proof.
  intros s s1 e tr o e' H T O S k. destruct (cleanup_cases _ _ _ H) as (_ & _ & _ & _ & _ & C & _).
  destruct (O k) as (O1 & O2 & O3 & O4).
  destruct C as [[-> A]|(j & -> & _ & P & A)]; rewrite A.
  - apply told_other; [apply T|]. right. intros [X|[X|[X|[X|(v & X & Y)]]]]; try contradiction. injection X as <-. apply shuts_in in Y. rewrite S in Y. exact Y.
  - destruct (Nat.eq_dec k j) as [->|Q].
    + rewrite (phase_same _ _ _ _ P). specialize (T j). unfold ph_of in P. unfold phase_of in T. rewrite P in T. cbn in T. destruct T as ((T1 & T2 & T3) & T4 & T5).
      cbn. unfold quiet. rewrite !happened_snoc, shut_snoc. split; [|split].
      * repeat split; intros [X|[X _]]; auto.
      * auto.
      * right. exists e'. split; [reflexivity|]. apply shuts_in. rewrite S. cbn. auto.
    + rewrite phase_other by exact Q. apply told_other; [apply T|]. right. intros [X|[X|[X|[X|(v & X & Y)]]]]; try contradiction.
      injection X as <-. apply shuts_in in Y. rewrite S in Y. cbn in Y. destruct Y as [Y|[]]. congruence.
Qed.

Lemma connect_cases : forall s s1 e, jc_connect s = (s1, e) ->
  (jc_url s = None /\ s1 = s /\ e = []) \/
  exists u, jc_url s = Some u /\ e = [EConnect (length (jc_att s)) u] /\
    s1 = JConn (Some u) (jc_tick s) (jc_dead s) (jc_att s ++ [(u, PTry)]) (jc_est s) JConnecting (jc_delay s) (jc_timers s).
Proof.
  intros s s1 e H. unfold jc_connect in H. destruct (jc_url s) as [u|] eqn:U; injection H as <- <-; [right; exists u|left]; auto.
Qed.

Lemma ginv_rerun : forall f tr s o url tick timers s' e, ginv f tr s -> jc_rerun s url tick timers = (s', e) ->
  (forall k, o <> JcConnected k /\ o <> JcFailed k /\ o <> JcLost k /\ o <> JcGone k) -> o <> JcClose ->
  (match o with JcUrl u => u | _ => url_of tr end = url) -> ginv f (tr ++ [(o, Some e)]) s'.
Proof.
  intros f tr s o url tick timers s' e G H O NC U. unfold jc_rerun in H. destruct (jc_cleanup s) as [s1 e1] eqn:C.
  destruct (jc_connect _) as [s2 e2] eqn:D in H. injection H as <- <-.
  destruct (cleanup_cases _ _ _ C) as (_ & _ & C3 & C4 & _ & C6 & _).
  assert (T1 : tries1 (o, Some e1) = []) by (destruct C6 as [[-> _]|(k & -> & _)]; reflexivity).
  assert (L1 : length (jc_att s1) = length (jc_att s) /\ map fst (jc_att s1) = map fst (jc_att s)).
  { destruct C6 as [[_ ->]|(k & _ & _ & _ & ->)]; [auto|]. now rewrite ph_len, ph_fst. }
  destruct L1 as [L1 L2].
  assert (F : fails1 (fails tr) (o, Some (e1 ++ e2)) = fails tr).
  { destruct (O 0) as (Oa & Ob & Oc & Od). destruct o; cbn; auto; exfalso.
    - destruct (O k) as (X & _). now apply X.
    - destruct (O k) as (_ & X & _). now apply X.
    - destruct (O k) as (_ & _ & X & _). now apply X. }
  assert (TE : tries1 (o, Some (e1 ++ e2)) = tries1 (o, Some e2)).
  { unfold tries1 in *. cbn [snd] in *. rewrite flat_map_app, T1. reflexivity. }
  assert (SH : shuts e2 = []) by (destruct (connect_cases _ _ _ D) as [(_ & _ & ->)|(u & _ & -> & _)]; reflexivity).
  assert (TC := told_cleanup _ _ _ tr o (e1 ++ e2) C (g_told _ _ _ G) O).
  assert (SE : shuts (e1 ++ e2) = shuts e1) by (unfold shuts in *; rewrite flat_map_app, SH, app_nil_r; reflexivity).
  specialize (TC SE).
  destruct (connect_cases _ _ _ D) as [(U2 & -> & ->)|(u & U2 & -> & ->)]; cbn [jc_url jc_tick jc_dead jc_att jc_est jc_status jc_delay jc_timers] in *.
  - constructor; cbn [jc_url jc_tick jc_dead jc_att jc_est jc_status jc_delay jc_timers].
    + intros R. rewrite fails_snoc, F, C4. exact (g_delay _ _ _ G R).
    + rewrite tries_snoc, TE. cbn. rewrite app_nil_r, L1, L2. exact (g_tries _ _ _ G).
    + exact TC.
    + now rewrite url_snoc.
    + rewrite closed_snoc, C3, <- (g_dead _ _ _ G). tauto.
    + intros _ _ u X. congruence.
  - constructor; cbn [jc_url jc_tick jc_dead jc_att jc_est jc_status jc_delay jc_timers].
    + intros R. rewrite fails_snoc, F, C4. exact (g_delay _ _ _ G R).
    + rewrite tries_snoc, TE, combine_snoc, L1, L2, (g_tries _ _ _ G). reflexivity.
    + intros k. rewrite phase_app. destruct (Nat.eqb_spec k (length (jc_att s1))) as [->|Q]; [|apply TC].
      specialize (TC (length (jc_att s1))). rewrite phase_end in TC. exact TC.
    + rewrite url_snoc. congruence.
    + rewrite closed_snoc, C3, <- (g_dead _ _ _ G). tauto.
    + intros _ _ v X. injection X as <-. exists PTry, (jc_att s1). auto.
Qed.

(** An operation about attempt [k] only. *)
Lemma told_at : forall tr o k l p q, (forall j, told tr j (phase_of l j)) -> phase_of l k = Some p ->
  (forall j, j <> k -> o <> JcConnected j /\ o <> JcFailed j /\ o <> JcLost j /\ o <> JcGone j) ->
  forall e, shuts e = [] -> told (tr ++ [(o, Some e)]) k (Some q) -> forall j, told (tr ++ [(o, Some e)]) j (phase_of (ph_set l k q) j).
Proof.
  intros tr o k l p q T P O e S K j. destruct (Nat.eq_dec j k) as [->|Q]; [now rewrite (phase_same _ _ _ _ P)|].
  rewrite phase_other by exact Q. apply told_other; [apply T|]. right. destruct (O j Q) as (O1 & O2 & O3 & O4).
  intros [X|[X|[X|[X|(v & X & Y)]]]]; try contradiction. injection X as <-. apply shuts_in in Y. rewrite S in Y. exact Y.
Qed.

Lemma ginv_none : forall f tr s o, ginv f tr s -> (forall u, o <> JcUrl u) -> o <> JcClose -> ginv f (tr ++ [(o, None)]) s.
Proof.
  intros f tr s o G NU NC. destruct G. constructor.
  - intros R. rewrite fails_snoc. rewrite (g_delay0 R). f_equal. destruct o; reflexivity.
  - rewrite tries_snoc. cbn. now rewrite app_nil_r.
  - intros k. apply told_other; auto.
  - rewrite url_snoc. destruct o; auto. exfalso. now apply (NU u).
  - rewrite closed_snoc, <- g_dead0. tauto.
  - intros R D u U. destruct (g_next0 R D u U) as (p & l & A & B). exists p, l. split; [exact A|]. rewrite happened_snoc. tauto.
Qed.

Lemma ginv_catch : forall f tr s o k s' e, ginv f tr s -> jc_catch f s k = (s', e) ->
  (o = JcFailed k /\ ph_of s k = Some PTry) \/ (o = JcLost k /\ ph_of s k = Some POpen) -> ginv f (tr ++ [(o, Some e)]) s'.
Proof.
  intros f tr s o k s' e G H O.
  assert (W : exists p, phase_of (jc_att s) k = Some p) by (destruct O as [[_ P]|[_ P]]; unfold ph_of in P; unfold phase_of; eauto).
  destruct W as [p P].
  assert (S : shuts e = []) by (unfold jc_catch in H; destruct (jf_reload f); injection H as <- <-; reflexivity).
  assert (T : forall j, told (tr ++ [(o, Some e)]) j (phase_of (ph_set (jc_att s) k POver) j)).
  { apply (told_at _ _ _ _ _ _ (g_told _ _ _ G) P).
    - intros j Q. destruct O as [[-> _]|[-> _]]; repeat split; congruence.
    - exact S.
    - assert (K := g_told _ _ _ G k). cbn. rewrite !happened_snoc. destruct O as [[-> X]|[-> X]]; unfold ph_of in X; unfold phase_of in K; rewrite X in K; cbn in K.
      + left. split; [right; split; [reflexivity|discriminate]|]. intros [Y|[Y _]]; [tauto|discriminate].
      + right. split; [tauto|]. left. right. split; [reflexivity|discriminate]. }
  assert (U : match o with JcUrl u => u | _ => url_of tr end = url_of tr) by (destruct O as [[-> _]|[-> _]]; reflexivity).
  assert (NC : o <> JcClose) by (destruct O as [[-> _]|[-> _]]; discriminate).
  assert (F : fails (tr ++ [(o, Some e)]) = Datatypes.S (fails tr)) by (rewrite fails_snoc; destruct O as [[-> _]|[-> _]]; reflexivity).
  assert (R1 : jc_url s' = jc_url s /\ jc_dead s' = jc_dead s /\ jc_att s' = ph_set (jc_att s) k POver /\ tries1 (o, Some e) = []).
  { unfold jc_catch in H. destruct (jf_reload f); injection H as <- <-; auto. }
  destruct R1 as (R1 & R2 & R3 & R4). constructor.
  - intros R. unfold jc_catch in H. rewrite R in H. injection H as <- <-. cbn [jc_delay]. rewrite F, (g_delay _ _ _ G R). apply backoff_next.
  - rewrite tries_snoc, R4, app_nil_r, R3, ph_len, ph_fst. exact (g_tries _ _ _ G).
  - rewrite R3. exact T.
  - rewrite url_snoc, U, R1. exact (g_url _ _ _ G).
  - rewrite closed_snoc, R2, <- (g_dead _ _ _ G). tauto.
  - intros R D u X. rewrite R1 in X. rewrite R2 in D. destruct (g_next _ _ _ G R D u X) as (q & l & A & _).
    unfold jc_catch in H. rewrite R in H. injection H as <- <-. cbn [jc_att jc_timers jc_tick]. rewrite A, ph_set_snoc.
    assert (Z : exists i t, nth_error (jc_timers s ++ [Some (jc_tick s + 1)]) i = Some (Some t) /\ jc_tick s < t).
    { exists (length (jc_timers s)), (jc_tick s + 1). rewrite nth_error_app2, Nat.sub_diag by lia. split; [reflexivity|lia]. }
    destruct (k =? length l); eexists; eexists; (split; [reflexivity|]); auto.
Qed.

Lemma ginv_step : forall f tr s o s' x, ginv f tr s -> jc_step f s o = (s', x) -> ginv f (tr ++ [(o, x)]) s'.
Proof.
  intros f tr s o s' x G H. destruct o as [u|k|k|k|k|i|]; cbn [jc_step] in H.
  - destruct (jc_dead s) eqn:D; [|destruct (opt_eqb u (jc_url s)) eqn:Q].
    + injection H as <- <-. destruct G. constructor; cbn [jc_url jc_tick jc_dead jc_att jc_est jc_status jc_delay jc_timers].
      * intros R. rewrite fails_snoc. exact (g_delay0 R).
      * rewrite tries_snoc. cbn. now rewrite app_nil_r.
      * intros k. apply told_other; [auto|right]. intros [X|[X|[X|[X|(v & X & Y)]]]]; try discriminate. injection X as <-. exact Y.
      * now rewrite url_snoc.
      * rewrite closed_snoc, g_dead0, D. intuition discriminate.
      * discriminate.
    + injection H as <- <-. assert (u = jc_url s).
      { unfold opt_eqb in Q. destruct u, (jc_url s); try discriminate; auto. apply Nat.eqb_eq in Q. congruence. }
      destruct G. constructor.
      * intros R. rewrite fails_snoc. exact (g_delay0 R).
      * rewrite tries_snoc. cbn. now rewrite app_nil_r.
      * intros k. apply told_other; [auto|right]. intros [X|[X|[X|[X|(v & X & Y)]]]]; try discriminate. injection X as <-. exact Y.
      * rewrite url_snoc. exact H.
      * rewrite closed_snoc, g_dead0, D. intuition discriminate.
      * intros R D' v U. destruct (g_next0 R D' v U) as (p & l & A & B). exists p, l. split; [exact A|]. rewrite happened_snoc. tauto.
    + unfold jc_did in H. destruct (jc_rerun s u (jc_tick s) (jc_timers s)) as [s1 e] eqn:E. injection H as <- <-.
      eapply ginv_rerun; eauto; try discriminate. intros k. repeat split; discriminate.
  - destruct (ph_of s k) as [[]|] eqn:P; try (injection H as <- <-; apply ginv_none; [exact G|discriminate|discriminate]).
    injection H as <- <-. constructor; cbn [jc_url jc_tick jc_dead jc_att jc_est jc_status jc_delay jc_timers].
    + intros R. rewrite fails_snoc. reflexivity.
    + rewrite tries_snoc. cbn. rewrite app_nil_r, ph_len, ph_fst. exact (g_tries _ _ _ G).
    + eapply told_at; [apply (g_told _ _ _ G)|exact P| |reflexivity|].
      * intros j Q. repeat split; congruence.
      * assert (K := g_told _ _ _ G k). unfold ph_of in P. unfold phase_of in K. rewrite P in K. cbn in K. cbn. unfold quiet. rewrite !happened_snoc, shut_snoc.
        destruct K as ((K1 & K2 & K3) & K4 & K5). split; [repeat split; intros [X|[X _]]; auto; discriminate|]. split; [right; split; [reflexivity|discriminate]|].
        intros [X|(v & X & Y)]; [auto|]. injection X as <-. exact Y.
    + rewrite url_snoc. exact (g_url _ _ _ G).
    + rewrite closed_snoc, <- (g_dead _ _ _ G). intuition discriminate.
    + intros R D u U. destruct (g_next _ _ _ G R D u U) as (p & l & A & B). rewrite A, ph_set_snoc.
      destruct (k =? length l); eexists; eexists; (split; [reflexivity|]); auto. rewrite happened_snoc, ph_len. tauto.
  - destruct (ph_of s k) as [[]|] eqn:P; try (injection H as <- <-; apply ginv_none; [exact G|discriminate|discriminate]).
    unfold jc_did in H. destruct (jc_catch f s k) as [s1 e] eqn:E. injection H as <- <-. eapply ginv_catch; eauto.
  - destruct (ph_of s k) as [[]|] eqn:P; try (injection H as <- <-; apply ginv_none; [exact G|discriminate|discriminate]).
    unfold jc_did in H. destruct (jc_catch f s k) as [s1 e] eqn:E. injection H as <- <-. eapply ginv_catch; eauto.
  - destruct (ph_of s k) as [[]|] eqn:P; try (injection H as <- <-; apply ginv_none; [exact G|discriminate|discriminate]).
    injection H as <- <-. constructor; cbn [jc_url jc_tick jc_dead jc_att jc_est jc_status jc_delay jc_timers].
    + intros R. rewrite fails_snoc. exact (g_delay _ _ _ G R).
    + rewrite tries_snoc. cbn. rewrite app_nil_r, ph_len, ph_fst. exact (g_tries _ _ _ G).
    + eapply told_at; [apply (g_told _ _ _ G)|exact P| |reflexivity|].
      * intros j Q. repeat split; congruence.
      * assert (K := g_told _ _ _ G k). unfold ph_of in P. unfold phase_of in K. rewrite P in K. cbn in K. cbn. rewrite !happened_snoc.
        right. split; [left; tauto|]. right. right. split; [reflexivity|discriminate].
    + rewrite url_snoc. exact (g_url _ _ _ G).
    + rewrite closed_snoc, <- (g_dead _ _ _ G). intuition discriminate.
    + intros R D u U. destruct (g_next _ _ _ G R D u U) as (p & l & A & B). rewrite A, ph_set_snoc.
      destruct (Nat.eqb_spec k (length l)) as [->|Q]; eexists; eexists; (split; [reflexivity|]); rewrite happened_snoc, ?ph_len.
      * right. right. left. right. split; [reflexivity|discriminate].
      * tauto.
  - destruct (nth_error (jc_timers s) i) as [[t|]|] eqn:N; try (injection H as <- <-; apply ginv_none; [exact G|discriminate|discriminate]).
    destruct (jc_dead s || (Nat.max (jc_tick s) t =? jc_tick s)) eqn:B.
    + injection H as <- <-. destruct G. constructor; cbn [jc_url jc_tick jc_dead jc_att jc_est jc_status jc_delay jc_timers].
      * intros R. rewrite fails_snoc. exact (g_delay0 R).
      * rewrite tries_snoc. cbn. now rewrite app_nil_r.
      * intros k. apply told_other; [auto|right]. intros [X|[X|[X|[X|(v & X & Y)]]]]; try discriminate. injection X as <-. exact Y.
      * now rewrite url_snoc.
      * rewrite closed_snoc, g_dead0. intuition discriminate.
      * intros R D u U. rewrite D in B. cbn [orb] in B. apply Nat.eqb_eq in B. destruct (g_next0 R D u U) as (p & l & A & C). exists p, l. split; [exact A|].
        rewrite happened_snoc. destruct C as [C|[C|[C|(j & t' & C & L)]]]; auto. right. right. right. exists j, t'. rewrite B. split; [|exact L].
        rewrite tm_other; [exact C|]. intros ->. rewrite N in C. injection C as ->. lia.
    + unfold jc_did in H. destruct (jc_rerun s (jc_url s) _ _) as [s1 e] eqn:E. injection H as <- <-.
      eapply ginv_rerun; eauto; try discriminate. { intros k. repeat split; discriminate. } exact (g_url _ _ _ G).
  - destruct (jc_dead s) eqn:D.
    + injection H as <- <-. destruct G. constructor.
      * intros R. rewrite fails_snoc. exact (g_delay0 R).
      * rewrite tries_snoc. cbn. now rewrite app_nil_r.
      * intros k. apply told_other; [auto|right]. intros [X|[X|[X|[X|(v & X & Y)]]]]; try discriminate. injection X as <-. exact Y.
      * now rewrite url_snoc.
      * rewrite closed_snoc, D. tauto.
      * congruence.
    + destruct (jc_cleanup s) as [s1 e] eqn:C. injection H as <- <-.
      destruct (cleanup_cases _ _ _ C) as (C1 & C2 & C3 & C4 & C5 & C6 & _).
      assert (T := told_cleanup _ _ _ tr JcClose e C (g_told _ _ _ G)).
      constructor; cbn [jc_url jc_tick jc_dead jc_att jc_est jc_status jc_delay jc_timers].
      * intros R. rewrite fails_snoc, C4. exact (g_delay _ _ _ G R).
      * rewrite tries_snoc, (g_tries _ _ _ G). destruct C6 as [[-> ->]|(k & -> & _ & _ & ->)]; cbn; rewrite app_nil_r, ?ph_len, ?ph_fst; reflexivity.
      * apply T; [intros k; repeat split; discriminate|reflexivity].
      * rewrite url_snoc, C1. exact (g_url _ _ _ G).
      * rewrite closed_snoc. tauto.
      * discriminate.
Qed.

Lemma ginv_init : forall f, ginv f [] (jc_init f).
Proof.
  intros f. constructor; cbn; auto; try discriminate.
  - intros k. destruct k; cbn; unfold quiet, happened, shut; cbn; firstorder.
  - split; [intros (x & [])|discriminate].
Qed.
Lemma ginv_run : forall f ops tr0 s s' tr, ginv f tr0 s -> jc_run f s ops = (s', tr) -> ginv f (tr0 ++ tr) s'.
Proof.
  induction ops as [|o ops IH]; intros tr0 s s' tr I H; cbn [jc_run] in H.
  - injection H as <- <-. now rewrite app_nil_r.
  - destruct (jc_step f s o) as [s1 x] eqn:E. destruct (jc_run f s1 ops) as [s2 tr1] eqn:E2. injection H as <- <-.
    change ((o, x) :: tr1) with ([(o, x)] ++ tr1). rewrite app_assoc. eapply IH; [|exact E2]. eapply ginv_step; eauto.
Qed.
Lemma ginv_all : forall f ops s tr, jc_run f (jc_init f) ops = (s, tr) -> ginv f tr s.
Proof. intros f ops s tr H. apply (ginv_run f _ [] _ _ _ (ginv_init f) H). Qed.

(** ** C178 *)
Lemma waits : forall f ops s a o x c, jf_reload f = true -> jc_run f (jc_init f) ops = (s, a ++ (o, x) :: c) ->
  (failure o /\ x <> None -> x = Some [EWait (backoff f (fails a))]) /\
  (forall evs d, x = Some evs -> In (EWait d) evs -> failure o).
Proof.
  intros f ops s a o x c R H. destruct (run_split _ _ _ _ _ _ _ _ H) as (p & q & s1 & s2 & _ & A & X & _).
  assert (G := ginv_all _ _ _ _ A). assert (D := g_delay _ _ _ G R).
  assert (NW : forall z u t tm s' e d, jc_rerun z u t tm = (s', e) -> ~ In (EWait d) e).
  { intros z u t tm s' e d E I. unfold jc_rerun in E. destruct (jc_cleanup z) as [z1 e1] eqn:C1. destruct (jc_connect _) as [z2 e2] eqn:C2 in E. injection E as <- <-.
    apply in_app_iff in I. destruct (cleanup_cases _ _ _ C1) as (_ & _ & _ & _ & _ & C & _).
    destruct I as [I|I]; [destruct C as [[-> _]|(j & -> & _)]; cbn in I; intuition discriminate|].
    destruct (connect_cases _ _ _ C2) as [(_ & _ & ->)|(v & _ & -> & _)]; cbn in I; intuition discriminate. }
  destruct o as [u|k|k|k|k|i|]; cbn [failure jc_step] in *; (split; [intros [F N]; try contradiction|intros evs d -> I; try exact Logic.I; exfalso]).
  - destruct (jc_dead s1); [injection X as _ <-; exact I|]. destruct (opt_eqb u (jc_url s1)); [injection X as _ <-; exact I|].
    unfold jc_did in X. destruct (jc_rerun _ _ _ _) as [z e] eqn:E in X. injection X as _ <-. exact (NW _ _ _ _ _ _ _ E I).
  - destruct (ph_of s1 k) as [[]|]; try discriminate; injection X as _ <-; exact I.
  - destruct (ph_of s1 k) as [[]|]; try (injection X as _ <-; congruence). unfold jc_did, jc_catch in X. rewrite R in X. injection X as _ <-. now rewrite D.
  - destruct (ph_of s1 k) as [[]|]; try (injection X as _ <-; congruence). unfold jc_did, jc_catch in X. rewrite R in X. injection X as _ <-. now rewrite D.
  - destruct (ph_of s1 k) as [[]|]; try discriminate; injection X as _ <-; exact I.
  - destruct (nth_error (jc_timers s1) i) as [[t|]|]; try discriminate. destruct (jc_dead s1 || _); [injection X as _ <-; exact I|].
    unfold jc_did in X. destruct (jc_rerun _ _ _ _) as [z e] eqn:E in X. injection X as _ <-. exact (NW _ _ _ _ _ _ _ E I).
  - destruct (jc_dead s1); [injection X as _ <-; exact I|]. destruct (jc_cleanup s1) as [z e] eqn:C. injection X as _ <-.
    destruct (cleanup_cases _ _ _ C) as (_ & _ & _ & _ & _ & Z & _). destruct Z as [[-> _]|(j & -> & _)]; cbn in I; intuition discriminate.
Qed.

(** ** C179 *)
Lemma trying_iff : forall f tr s k, ginv f tr s -> (trying tr k <-> phase_of (jc_att s) k = Some PTry).
Proof.
  intros f tr s k G. assert (T := g_told _ _ _ G k). unfold trying. split.
  - intros ((u & I) & NC & NF). rewrite (g_tries _ _ _ G) in I.
    assert (L : k < length (jc_att s)).
    { apply in_combine_l in I. apply in_seq in I. lia. }
    unfold phase_of in *. apply nth_error_Some in L. destruct (nth_error (jc_att s) k) as [[v q]|]; [|congruence]. cbn in *. destruct q; cbn in T; tauto || auto.
  - intros P. rewrite P in T. cbn in T. split; [|unfold quiet in T; tauto].
    unfold phase_of in P. destruct (nth_error (jc_att s) k) as [[v q]|] eqn:N; [|discriminate]. exists v. rewrite (g_tries _ _ _ G).
    destruct (nth_error_split _ _ N) as (a & c & E & <-). rewrite E, map_app, app_length. cbn [map length fst].
    rewrite seq_app. cbn [seq]. assert (Q : forall (x y x' y' : list nat) (m n : nat), length x = length x' -> In (m, n) (combine (x ++ m :: y) (x' ++ n :: y'))).
    { induction x; destruct x'; cbn; intros; try lia; auto. }
    apply Q. now rewrite seq_length, map_length.
Qed.
Lemma open_iff : forall f tr s k, ginv f tr s -> (open tr k <-> phase_of (jc_att s) k = Some POpen).
Proof.
  intros f tr s k G. assert (T := g_told _ _ _ G k). unfold open. destruct (phase_of (jc_att s) k) as [[]|]; cbn in T; unfold quiet in T; split;
    try discriminate; try tauto; intros _; reflexivity || tauto.
Qed.

Lemma last_try : forall f tr s l u p, ginv f tr s -> jc_att s = l ++ [(u, p)] -> exists c, tries tr = c ++ [(length l, u)].
Proof. intros f tr s l u p G A. rewrite (g_tries _ _ _ G), A, combine_snoc. eauto. Qed.

Lemma keeps_on : forall f ops s tr u, jf_reload f = true -> jc_run f (jc_init f) ops = (s, tr) -> ~ was_closed tr -> url_of tr = Some u ->
  exists c k, tries tr = c ++ [(k, u)] /\ (trying tr k \/ open tr k \/ happened tr (JcGone k) \/
    exists i evs, snd (jc_step f s (JcTimer i)) = Some evs /\ In (EConnect (S k) u) evs).
Proof.
  intros f ops s tr u R H NC U. assert (G := ginv_all _ _ _ _ H). rewrite (g_url _ _ _ G) in U.
  assert (D : jc_dead s = false). { destruct (jc_dead s) eqn:D; [|reflexivity]. exfalso. apply NC, (g_dead _ _ _ G). exact D. }
  destruct (g_next _ _ _ G R D u U) as (p & l & A & B). destruct (last_try _ _ _ _ _ _ G A) as [c T]. exists c, (length l). split; [exact T|].
  assert (P : phase_of (jc_att s) (length l) = Some p). { rewrite A, phase_app, Nat.eqb_refl. reflexivity. }
  destruct B as [->|[->|[B|(i & t & N & L)]]].
  - left. apply (trying_iff _ _ _ _ G). exact P.
  - right. left. apply (open_iff _ _ _ _ G). exact P.
  - auto.
  - right. right. right. exists i. cbn [jc_step]. rewrite N, D. cbn [orb].
    assert (Q : (Nat.max (jc_tick s) t =? jc_tick s) = false) by (apply Nat.eqb_neq; lia). rewrite Q.
    unfold jc_rerun. destruct (jc_cleanup s) as [s1 e1] eqn:C. destruct (cleanup_cases _ _ _ C) as (_ & _ & _ & _ & _ & Z & _).
    unfold jc_connect. cbn [jc_url]. rewrite U. cbn [jc_did snd jc_att].
    assert (L1 : length (jc_att s1) = length (jc_att s)) by (destruct Z as [[_ ->]|(j & _ & _ & _ & ->)]; [reflexivity|apply ph_len]).
    eexists. split; [reflexivity|]. apply in_app_iff. right. left. rewrite L1, A, app_length. cbn. f_equal. lia.
Qed.

(** ** One URL *)
Definition no_timer (s : jconn) : Prop := forall i t, nth_error (jc_timers s) i <> Some (Some t).
Definition one_timer (s : jconn) : Prop := forall i j t t', nth_error (jc_timers s) i = Some (Some t) -> nth_error (jc_timers s) j = Some (Some t') -> i = j.
Record once_inv (u : nat) (tr : jclog) (s : jconn) : Prop := Once {
  o_url : jc_url s = Some u;
  o_all : forall k v q, nth_error (jc_att s) k = Some (v, q) -> v = u;
  o_case : exists l p, jc_att s = l ++ [(u, p)] /\ (forall x, In x l -> snd x = POver) /\
    (jc_dead s = false ->
      (p = PTry /\ jc_est s = None /\ jc_status s = JConnecting /\ no_timer s) \/
      (p = POpen /\ jc_est s = Some (length l) /\ jc_status s = JConnected /\ no_timer s) \/
      (p = POver /\ happened tr (JcGone (length l)) /\ no_timer s) \/
      (p = POver /\ jc_est s = None /\ jc_status s = JDisconnected /\ one_timer s)) }.

Lemma once_ext : forall u tr s o x, once_inv u tr s -> once_inv u (tr ++ [(o, x)]) s.
Proof.
  intros u tr s o x [A B (l & p & C & D & E)]. constructor; auto. exists l, p. repeat (split; [assumption|]).
  intros F. rewrite happened_snoc. specialize (E F). tauto.
Qed.

Lemma over_only : forall l (P : nat * phase) k q, (forall x, In x l -> snd x = POver) -> phase_of (l ++ [P]) k = Some q -> q <> POver -> k = length l /\ q = snd P.
Proof.
  intros l [u p] k q A H N. rewrite phase_app in H. destruct (Nat.eqb_spec k (length l)) as [->|Q]; [injection H as <-; auto|].
  exfalso. unfold phase_of in H. destruct (nth_error l k) as [y|] eqn:E; [|discriminate]. apply nth_error_In in E. specialize (A _ E). cbn in H. congruence.
Qed.

Lemma once_step : forall f u tr s o s' x, once_inv u tr s -> jc_step f s o = (s', x) -> (forall v, o <> JcUrl v) -> once_inv u (tr ++ [(o, x)]) s'.
Proof.
  intros f u tr s o s' x I H NU. assert (I' := I). destruct I as [A B (l & p & C & D & E)].
  assert (SETALL : forall k q, forall j v q', nth_error (ph_set (jc_att s) k q) j = Some (v, q') -> v = u).
  { intros k q j v q' X. assert (Y : nth_error (map fst (ph_set (jc_att s) k q)) j = Some v) by (rewrite nth_error_map, X; reflexivity).
    rewrite ph_fst, nth_error_map in Y. destruct (nth_error (jc_att s) j) as [[v' q'']|] eqn:Z; [|discriminate]. injection Y as ->. exact (B _ _ _ Z). }
  assert (TRY : forall k, ph_of s k = Some PTry -> k = length l /\ p = PTry).
  { intros k P. unfold ph_of in P. change (option_map snd (nth_error (jc_att s) k)) with (phase_of (jc_att s) k) in P. rewrite C in P.
    destruct (over_only _ _ _ _ D P) as [X Y]; [discriminate|]. auto. }
  assert (OPEN : forall k, ph_of s k = Some POpen -> k = length l /\ p = POpen).
  { intros k P. unfold ph_of in P. change (option_map snd (nth_error (jc_att s) k)) with (phase_of (jc_att s) k) in P. rewrite C in P.
    destruct (over_only _ _ _ _ D P) as [X Y]; [discriminate|]. auto. }
  assert (CATCH : forall k o' s1 e, k = length l -> (p = PTry \/ p = POpen) -> jc_catch f s k = (s1, e) -> once_inv u (tr ++ [(o', Some e)]) s1).
  { intros k o' s1 e -> PP X.
    assert (T : jc_dead s = false -> no_timer s).
    { intros F. destruct (E F) as [(_ & _ & _ & T)|[(_ & _ & _ & T)|[(Y & _)|(Y & _)]]]; auto; exfalso; destruct PP; congruence. }
    unfold jc_catch in X. destruct (jf_reload f); injection X as <- <-; (constructor; cbn [jc_url jc_att jc_dead jc_est jc_status jc_timers];
      [exact A|exact (SETALL _ _)|]; exists l, POver; split; [rewrite C, ph_set_snoc, Nat.eqb_refl; reflexivity|]; split; [exact D|]; intros F; specialize (T F);
      do 3 right; split; [reflexivity|]; split; [reflexivity|]; split; [reflexivity|]; unfold one_timer, no_timer in *; cbn [jc_timers]).
    - assert (W : forall i t, nth_error (jc_timers s ++ [Some (jc_tick s + 1)]) i = Some (Some t) -> i = length (jc_timers s)).
      { intros i t N. destruct (Nat.lt_ge_cases i (length (jc_timers s))) as [L|L].
        - rewrite nth_error_app1 in N by exact L. exfalso. exact (T _ _ N).
        - assert (i < length (jc_timers s ++ [Some (jc_tick s + 1)])) by (apply nth_error_Some; congruence). rewrite app_length in H0. cbn in H0. lia. }
      intros i j t t' N N'. apply W in N, N'. congruence.
    - intros i j t t' N. exfalso. exact (T _ _ N). }
  destruct o as [v|k|k|k|k|i|]; cbn [jc_step] in H.
  - exfalso. now apply (NU v).
  - destruct (ph_of s k) as [[]|] eqn:P; try (injection H as <- <-; apply once_ext; exact I').
    injection H as <- <-. destruct (TRY _ P) as [-> ->]. constructor; cbn [jc_url jc_att jc_dead jc_est jc_status jc_timers]; [exact A|exact (SETALL _ _)|].
    exists l, POpen. split; [rewrite C, ph_set_snoc, Nat.eqb_refl; reflexivity|]. split; [exact D|]. intros F. right. left.
    destruct (E F) as [(_ & _ & _ & T)|[(X & _)|[(X & _)|(X & _)]]]; try discriminate. auto.
  - destruct (ph_of s k) as [[]|] eqn:P; try (injection H as <- <-; apply once_ext; exact I').
    unfold jc_did in H. destruct (jc_catch f s k) as [s1 e] eqn:Q. injection H as <- <-. destruct (TRY _ P) as [X Y]. eapply CATCH; eauto.
  - destruct (ph_of s k) as [[]|] eqn:P; try (injection H as <- <-; apply once_ext; exact I').
    unfold jc_did in H. destruct (jc_catch f s k) as [s1 e] eqn:Q. injection H as <- <-. destruct (OPEN _ P) as [X Y]. eapply CATCH; eauto.
  - destruct (ph_of s k) as [[]|] eqn:P; try (injection H as <- <-; apply once_ext; exact I').
    injection H as <- <-. destruct (OPEN _ P) as [-> ->]. constructor; cbn [jc_url jc_att jc_dead jc_est jc_status jc_timers]; [exact A|exact (SETALL _ _)|].
    exists l, POver. split; [rewrite C, ph_set_snoc, Nat.eqb_refl; reflexivity|]. split; [exact D|]. intros F. right. right. left. split; [reflexivity|].
    split; [apply happened_snoc; right; split; [reflexivity|discriminate]|].
    destruct (E F) as [(X & _)|[(_ & _ & _ & T)|[(X & _)|(X & _)]]]; try discriminate. exact T.
  - destruct (nth_error (jc_timers s) i) as [[t|]|] eqn:N; try (injection H as <- <-; apply once_ext; exact I').
    destruct (jc_dead s || (Nat.max (jc_tick s) t =? jc_tick s)) eqn:Z.
    + injection H as <- <-. constructor; cbn [jc_url jc_att jc_dead jc_est jc_status jc_timers]; [exact A|exact B|].
      exists l, p. split; [exact C|]. split; [exact D|]. intros F.
      destruct (E F) as [(_ & _ & _ & T)|[(_ & _ & _ & T)|[(_ & _ & T)|X]]]; [exfalso; exact (T _ _ N)|exfalso; exact (T _ _ N)|exfalso; exact (T _ _ N)|].
      do 3 right. destruct X as (X1 & X2 & X3 & X4). repeat (split; [assumption|]). intros i1 i2 t1 t2. cbn [jc_timers].
      destruct (Nat.eq_dec i1 i) as [->|Q1]; [rewrite tm_same, N; discriminate|]. destruct (Nat.eq_dec i2 i) as [->|Q2]; [rewrite tm_same, N; discriminate|].
      rewrite !tm_other by assumption. apply X4.
    + apply orb_false_iff in Z. destruct Z as [Z1 Z2].
      destruct (E Z1) as [(_ & _ & _ & T)|[(_ & _ & _ & T)|[(_ & _ & T)|(-> & X & Y & Y2)]]]; [exfalso; exact (T _ _ N)|exfalso; exact (T _ _ N)|exfalso; exact (T _ _ N)|].
      unfold jc_did, jc_rerun, jc_cleanup, jc_connect in H. rewrite A, X in H. cbn [jc_url jc_tick jc_dead jc_att jc_est jc_status jc_delay jc_timers] in H.
      injection H as <- <-. constructor; cbn [jc_url jc_att jc_dead jc_est jc_status jc_timers]; [reflexivity| |].
      * intros k v q W. destruct (Nat.lt_ge_cases k (length (jc_att s))) as [L|L]; [rewrite nth_error_app1 in W by exact L; exact (B _ _ _ W)|].
        rewrite nth_error_app2 in W by exact L. destruct (k - length (jc_att s)) as [|[|]]; cbn in W; congruence.
      * exists (jc_att s), PTry. split; [reflexivity|]. split.
        -- rewrite C. intros y W. apply in_app_iff in W. destruct W as [W|[<-|[]]]; [exact (D _ W)|reflexivity].
        -- intros _. left. repeat (split; [reflexivity|]). intros j t' W. cbn [jc_timers] in W. destruct (Nat.eq_dec j i) as [->|Q]; [rewrite tm_same, N in W; discriminate|].
           rewrite tm_other in W by exact Q. apply Q. exact (Y2 _ _ _ _ W N).
  - destruct (jc_dead s) eqn:F; [injection H as <- <-; apply once_ext; exact I'|].
    destruct (jc_cleanup s) as [s1 e] eqn:Q. injection H as <- <-. destruct (cleanup_cases _ _ _ Q) as (C1 & _ & _ & _ & _ & C6 & _).
    constructor; cbn [jc_url jc_att jc_dead jc_est jc_status jc_timers]; [congruence| |].
    + destruct C6 as [[_ ->]|(k & _ & _ & _ & ->)]; [exact B|exact (SETALL _ _)].
    + destruct C6 as [[_ ->]|(k & _ & _ & P & ->)].
      * exists l, p. split; [exact C|]. split; [exact D|discriminate].
      * destruct (OPEN _ P) as [-> _]. exists l, PShut. split; [rewrite C, ph_set_snoc, Nat.eqb_refl; reflexivity|]. split; [exact D|discriminate].
Qed.

Lemma once_run : forall f u ops tr0 s s' tr, once_inv u tr0 s -> jc_run f s ops = (s', tr) -> (forall v, ~ In (JcUrl v) ops) -> once_inv u (tr0 ++ tr) s'.
Proof.
  induction ops as [|o ops IH]; intros tr0 s s' tr I H N; cbn [jc_run] in H.
  - injection H as <- <-. now rewrite app_nil_r.
  - destruct (jc_step f s o) as [s1 x] eqn:E. destruct (jc_run f s1 ops) as [s2 tr1] eqn:E2. injection H as <- <-.
    change ((o, x) :: tr1) with ([(o, x)] ++ tr1). rewrite app_assoc. eapply IH; [|exact E2|].
    + eapply once_step; eauto. intros v ->. apply (N v). cbn. auto.
    + intros v W. apply (N v). cbn. auto.
Qed.
Lemma once_first : forall f u s x, jc_step f (jc_init f) (JcUrl (Some u)) = (s, x) -> once_inv u [(JcUrl (Some u), x)] s.
Proof.
  intros f u s x H. cbn in H. injection H as <- <-. constructor; cbn; auto.
  - intros [|[|k]] v q W; cbn in W; congruence.
  - exists [], PTry. split; [reflexivity|]. split; [intros ? []|]. intros _. left. repeat (split; [reflexivity|]). intros [|i] t W; discriminate.
Qed.
Lemma once_all : forall f u ops s tr, one_url u ops -> jc_run f (jc_init f) ops = (s, tr) -> once_inv u tr s.
Proof.
  intros f u ops s tr (ops' & -> & N) H. cbn [jc_run] in H. destruct (jc_step f (jc_init f) (JcUrl (Some u))) as [s1 x] eqn:E.
  destruct (jc_run f s1 ops') as [s2 tr1] eqn:E2. injection H as <- <-.
  exact (once_run f u ops' [_] s1 s2 tr1 (once_first f u s1 x E) E2 N).
Qed.
Lemma one_prefix : forall f u ops s a c, one_url u ops -> jc_run f (jc_init f) ops = (s, a ++ c) -> a <> [] -> forall p q, ops = p ++ q ->
  length p = length a -> one_url u p.
Proof.
  intros f u ops s a c (ops' & -> & N) H NA p q E L. destruct p as [|o p]; [destruct a; [congruence|discriminate]|].
  cbn [app] in E. injection E as <- ->. exists p. split; [reflexivity|]. intros v W. apply (N v). apply in_app_iff. auto.
Qed.
Lemma run_len : forall f ops s s' tr, jc_run f s ops = (s', tr) -> length tr = length ops.
Proof.
  induction ops as [|o ops IH]; intros s s' tr H; cbn [jc_run] in H; [now injection H as <- <-|].
  destruct (jc_step f s o) as [s1 x]. destruct (jc_run f s1 ops) as [s2 tr1] eqn:E. injection H as <- <-. cbn. f_equal. eauto.
Qed.

(** ** C180 *)
Lemma no_teardown : forall f u ops s a o evs c k, one_url u ops -> jc_run f (jc_init f) ops = (s, a ++ (o, Some evs) :: c) -> In (EShut k) evs -> o = JcClose.
Proof.
  intros f u ops s a o evs c k O H I. destruct (run_split _ _ _ _ _ _ _ _ H) as (p & q & s1 & s2 & E & A & X & _).
  destruct a as [|e a].
  { assert (L := run_len _ _ _ _ _ A). destruct p as [|o' p]; [|discriminate]. cbn in A. injection A as <-.
    destruct O as (ops' & -> & _). cbn [app] in E. injection E as <- _. cbn in X. injection X as _ <-. cbn in I. intuition discriminate. }
  assert (O' : one_url u p).
  { eapply (one_prefix f u ops _ (e :: a)); eauto; [discriminate|]. symmetry. exact (run_len _ _ _ _ _ A). }
  assert (J := once_all _ _ _ _ _ O' A). destruct J as [J1 J2 (l & ph & J3 & J4 & J5)].
  destruct o as [v|j|j|j|j|i|]; cbn [jc_step] in X; [exfalso| | | | | |reflexivity]; try exfalso.
  - destruct O as (ops' & -> & N). destruct p as [|o' p]; [destruct e, O' as (? & ? & _); discriminate|]. cbn [app] in E. injection E as _ ->. apply (N v), in_app_iff. cbn. auto.
  - destruct (ph_of s1 j) as [[]|]; try discriminate. injection X as _ <-. exact I.
  - destruct (ph_of s1 j) as [[]|]; try discriminate. unfold jc_did, jc_catch in X. destruct (jf_reload f); injection X as _ <-; cbn in I; intuition discriminate.
  - destruct (ph_of s1 j) as [[]|]; try discriminate. unfold jc_did, jc_catch in X. destruct (jf_reload f); injection X as _ <-; cbn in I; intuition discriminate.
  - destruct (ph_of s1 j) as [[]|]; try discriminate. injection X as _ <-. exact I.
  - destruct (nth_error (jc_timers s1) i) as [[t|]|] eqn:N; try discriminate.
    destruct (jc_dead s1 || (Nat.max (jc_tick s1) t =? jc_tick s1)) eqn:Z; [injection X as _ <-; exact I|].
    apply orb_false_iff in Z. destruct Z as [Z1 _].
    destruct (J5 Z1) as [(_ & _ & _ & T)|[(_ & _ & _ & T)|[(_ & _ & T)|(_ & Y & _)]]]; try (exact (T _ _ N)).
    unfold jc_did, jc_rerun, jc_cleanup, jc_connect in X. rewrite J1, Y in X. cbn in X. injection X as _ <-. cbn in I. intuition discriminate.
Qed.

(** ** C181 *)
Lemma state_right : forall f u ops s tr, one_url u ops -> jc_run f (jc_init f) ops = (s, tr) -> ~ was_closed tr -> (forall k, ~ happened tr (JcGone k)) ->
  (forall k, jc_est s = Some k <-> open tr k) /\ (jc_status s = JConnected <-> exists k, open tr k) /\
  (jc_status s = JConnecting <-> exists k, trying tr k) /\ (forall k, trying tr k \/ open tr k -> exists c, tries tr = c ++ [(k, u)]).
Proof.
  intros f u ops s tr O H NC NG. assert (G := ginv_all _ _ _ _ H). destruct (once_all _ _ _ _ _ O H) as [J1 J2 (l & p & J3 & J4 & J5)].
  assert (D : jc_dead s = false). { destruct (jc_dead s) eqn:D; [|reflexivity]. exfalso. apply NC, (g_dead _ _ _ G). exact D. }
  assert (T : forall k, trying tr k <-> k = length l /\ p = PTry).
  { intros k. rewrite (trying_iff _ _ _ _ G), J3. split; [intros P; destruct (over_only _ _ _ _ J4 P) as [X Y]; [discriminate|auto]|].
    intros [-> ->]. rewrite phase_app, Nat.eqb_refl. reflexivity. }
  assert (Q : forall k, open tr k <-> k = length l /\ p = POpen).
  { intros k. rewrite (open_iff _ _ _ _ G), J3. split; [intros P; destruct (over_only _ _ _ _ J4 P) as [X Y]; [discriminate|auto]|].
    intros [-> ->]. rewrite phase_app, Nat.eqb_refl. reflexivity. }
  split; [|split; [|split]].
  - intros k. rewrite Q. destruct (J5 D) as [(-> & -> & _)|[(-> & -> & _)|[(_ & X & _)|(-> & -> & _)]]].
    + split; [discriminate|intros [_ X]; discriminate].
    + split; [intros X; injection X as <-; auto|intros [-> _]; reflexivity].
    + exfalso. exact (NG _ X).
    + split; [discriminate|intros [_ X]; discriminate].
  - destruct (J5 D) as [(-> & _ & -> & _)|[(-> & _ & -> & _)|[(_ & X & _)|(-> & _ & -> & _)]]].
    + split; [discriminate|intros (k & X); apply Q in X; destruct X; discriminate].
    + split; [intros _; exists (length l); apply Q; auto|reflexivity].
    + exfalso. exact (NG _ X).
    + split; [discriminate|intros (k & X); apply Q in X; destruct X; discriminate].
  - destruct (J5 D) as [(-> & _ & -> & _)|[(-> & _ & -> & _)|[(_ & X & _)|(-> & _ & -> & _)]]].
    + split; [intros _; exists (length l); apply T; auto|reflexivity].
    + split; [discriminate|intros (k & X); apply T in X; destruct X; discriminate].
    + exfalso. exact (NG _ X).
    + split; [discriminate|intros (k & X); apply T in X; destruct X; discriminate].
  - intros k [X|X]; [apply T in X|apply Q in X]; destruct X as [-> _]; eapply last_try; eauto.
Qed.

(** ** C182 *)
Record shut_inv (s : jconn) : Prop := ShutInv {
  sh_dead : jc_dead s = true; sh_est : jc_est s = None; sh_all : forall k, phase_of (jc_att s) k <> Some PTry /\ phase_of (jc_att s) k <> Some POpen }.
Lemma shut_step : forall f s o, shut_inv s -> shut_inv (fst (jc_step f s o)).
Proof.
  intros f s o I. assert (I' := I). destruct I as [D E A].
  assert (P : forall k, ph_of s k <> Some PTry /\ ph_of s k <> Some POpen) by exact A.
  destruct o as [v|k|k|k|k|i|]; cbn [jc_step]; try (destruct (P k) as [P1 P2]; destruct (ph_of s k) as [[]|]; congruence || exact I').
  - rewrite D. constructor; auto.
  - destruct (nth_error (jc_timers s) i) as [[t|]|]; [|exact I'|exact I']. rewrite D. cbn. constructor; auto.
  - rewrite D. exact I'.
Qed.
Lemma shut_run : forall f ops s s' tr, shut_inv s -> jc_run f s ops = (s', tr) -> shut_inv s'.
Proof.
  induction ops as [|o ops IH]; intros s s' tr I H; cbn [jc_run] in H; [injection H as <- <-; exact I|].
  destruct (jc_step f s o) as [s1 x] eqn:E. destruct (jc_run f s1 ops) as [s2 tr1] eqn:E2. injection H as <- <-. eapply IH; [|exact E2].
  assert (X := shut_step f s o I). now rewrite E in X.
Qed.
Lemma closed_down : forall f u ops s a x c, one_url u ops -> jc_run f (jc_init f) ops = (s, a ++ (JcClose, x) :: c) ->
  ~ was_closed a -> (forall k, ~ trying a k) -> jc_est s = None /\ (forall k, ~ open (a ++ (JcClose, x) :: c) k) /\ tries c = [].
Proof.
  intros f u ops s a x c O H NC NT. destruct (run_split _ _ _ _ _ _ _ _ H) as (p & q & s1 & s2 & E & A & X & Y).
  assert (L := run_len _ _ _ _ _ A).
  destruct a as [|e a]. { destruct p; [|discriminate]. cbn in E. destruct O as (o' & -> & _). discriminate. }
  assert (O' : one_url u p). { eapply (one_prefix f u ops _ (e :: a)); eauto. discriminate. }
  assert (G := ginv_all _ _ _ _ A). assert (G' := ginv_all _ _ _ _ H). destruct (once_all _ _ _ _ _ O' A) as [J1 J2 (l & ph & J3 & J4 & J5)].
  assert (D : jc_dead s1 = false). { destruct (jc_dead s1) eqn:D; [|reflexivity]. exfalso. apply NC, (g_dead _ _ _ G). exact D. }
  assert (SI : shut_inv s2).
  { cbn [jc_step] in X. rewrite D in X. destruct (jc_cleanup s1) as [z e1] eqn:C. injection X as <- <-.
    destruct (cleanup_cases _ _ _ C) as (_ & _ & _ & _ & _ & C6 & C7). destruct C7 as [C7 _]; [congruence|].
    constructor; cbn [jc_dead jc_est jc_att]; auto. intros k.
    assert (T : forall j, phase_of (jc_att s1) j <> Some PTry). { intros j W. apply (NT j), (trying_iff _ _ _ _ G). exact W. }
    assert (W : forall j, phase_of (jc_att s1) j = Some POpen -> j = length l /\ ph = POpen).
    { intros j W. rewrite J3 in W. destruct (over_only _ _ _ _ J4 W) as [U V]; [discriminate|]. auto. }
    destruct C6 as [[Z ->]|(j & Z & Z1 & Z2 & ->)].
    - split; [apply T|]. intros V. destruct (W _ V) as [-> ->].
      destruct (J5 D) as [(U & _)|[(_ & U & _)|[(U & _)|(U & _)]]]; try discriminate.
      unfold jc_cleanup in C. rewrite J1, U in C. unfold ph_of in C. change (option_map snd (nth_error (jc_att s1) (length l))) with (phase_of (jc_att s1) (length l)) in C.
      rewrite V in C. injection C as _ <-. discriminate.
    - destruct (Nat.eq_dec k j) as [->|Q]; [rewrite (phase_same _ _ _ _ Z2); split; discriminate|]. rewrite phase_other by exact Q. split; [apply T|].
      intros V. destruct (W _ V) as [V1 _]. destruct (W _ Z2) as [V2 _]. congruence. }
  assert (SI' := shut_run _ _ _ _ _ SI Y). split; [apply (sh_est _ SI')|]. split.
  - intros k W. apply (open_iff _ _ _ _ G') in W. exact (proj2 (sh_all _ SI' k) W).
  - clear - SI Y. revert s2 s c SI Y. induction q as [|o q IH]; intros s2 s c SI Y; cbn [jc_run] in Y; [now injection Y as <- <-|].
    destruct (jc_step f s2 o) as [s3 y] eqn:E. destruct (jc_run f s3 q) as [s4 tr] eqn:E2. injection Y as <- <-.
    assert (SI3 : shut_inv s3) by (assert (Z := shut_step f s2 o SI); now rewrite E in Z).
    change (tries1 (o, y) ++ tries tr = []). rewrite (IH _ _ _ SI3 E2), app_nil_r.
    destruct SI as [D E0 A]. assert (P : forall k, ph_of s2 k <> Some PTry /\ ph_of s2 k <> Some POpen) by exact A.
    destruct o as [v|k|k|k|k|i|]; cbn [jc_step] in E; try (destruct (P k) as [P1 P2]; destruct (ph_of s2 k) as [[]|]; try congruence; now injection E as _ <-).
    + rewrite D in E. now injection E as _ <-.
    + destruct (nth_error (jc_timers s2) i) as [[t|]|]; [|now injection E as _ <-|now injection E as _ <-]. rewrite D in E. now injection E as _ <-.
    + rewrite D in E. now injection E as _ <-.
Qed.
