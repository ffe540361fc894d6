From Coq Require Import Arith List Bool Lia.
From Verif.Model Require Import JsEncode.
From Verif.Spec Require Import JsEncodeSpec.
Import ListNotations.

Definition auto_ (l : clog) := fold_left track_step l (Some (0, 0, GNone)).
Definition gst (g : option nat) : gstate := match g with Some g => GOpen g | None => GNone end.

(** ** Always *)
Record Inv (s : enc) (l : clog) : Prop := {
  i_auto : auto_ l = Some (c_media s, c_groups s, gst (c_group s));
  i_run : c_group s <> None -> c_cur s = Some (PRun true) }.

Lemma auto_app l m : auto_ (l ++ m) = fold_left track_step m (auto_ l).
Proof. unfold auto_. apply fold_left_app. Qed.

Lemma step_inv s l o : Inv s l -> Inv (fst (c_step s o)) (l ++ snd (c_step s o)).
Proof.
  intros [A R]. destruct s as [n cur late grp k act cf]. cbn [c_media c_cur c_late c_group c_groups c_active c_conf] in *.
  destruct o as [on| |i|key|]; cbn [c_step c_media c_cur c_late c_group c_groups c_active c_conf].
  - destruct cur as [[| |had]|], on, grp as [g|]; try (specialize (R ltac:(discriminate)); discriminate R); unfold c_finally; cbn [fst snd c_emit];
      (split; [rewrite auto_app, A; cbn; rewrite ?Nat.eqb_refl; reflexivity|cbn; congruence]).
  - destruct cur as [[| |had]|]; cbn [fst snd]; try (rewrite app_nil_r; split; assumption).
    destruct grp as [g|]; [specialize (R ltac:(discriminate)); discriminate R|]. split; [rewrite auto_app, A; reflexivity|cbn; congruence].
  - destruct (existsb (Nat.eqb i) late).
    + unfold c_finally. cbn [fst snd c_media c_cur c_late c_group c_groups c_active c_conf]. split; [rewrite auto_app, A|cbn; congruence].
      destruct grp as [g|]; cbn; rewrite ?Nat.eqb_refl; reflexivity.
    + destruct cur as [[| |had]|]; try (cbn [fst snd]; rewrite app_nil_r; split; assumption). destruct (i =? n); cbn [fst snd]; [|rewrite app_nil_r; split; assumption].
      destruct grp as [g|]; [specialize (R ltac:(discriminate)); discriminate R|]. split; [rewrite auto_app, A; reflexivity|cbn; congruence].
  - destruct cur as [[| |had]|]; try (cbn [fst snd]; rewrite app_nil_r; split; assumption). destruct key; [|destruct had].
    + cbn [fst snd]. split; [rewrite auto_app, A|reflexivity]. destruct grp as [g|]; cbn; repeat (rewrite ?Nat.eqb_refl; cbn); reflexivity.
    + cbn [fst snd]. split; [rewrite auto_app, A|exact R]. destruct grp as [g|]; cbn; rewrite ?Nat.eqb_refl; reflexivity.
    + cbn [fst snd]; rewrite app_nil_r; split; assumption.
  - destruct cur as [[| |had]|]; try (cbn [fst snd]; rewrite app_nil_r; split; assumption); unfold c_finally, c_emit; cbn [fst snd c_media c_cur c_late c_group c_groups c_active c_conf];
      (split; [rewrite auto_app, A; destruct grp as [g|]; cbn; rewrite ?Nat.eqb_refl; reflexivity|cbn; congruence]).
Qed.
Lemma run_inv ops : forall s l, Inv s l -> Inv (fst (c_run s ops)) (l ++ snd (c_run s ops)).
Proof.
  induction ops as [|o ops IH]; intros s l I; [cbn; rewrite app_nil_r; exact I|]. cbn [c_run].
  pose proof (step_inv s l o I) as J. destruct (c_step s o) as [s1 a]. cbn [fst snd] in J. specialize (IH _ _ J).
  destruct (c_run s1 ops) as [s2 b]. cbn [fst snd] in *. rewrite app_assoc. exact IH.
Qed.
Lemma grouped ops : well_grouped (snd (c_run c_init ops)).
Proof.
  assert (I : Inv c_init []) by (split; [reflexivity|cbn; congruence]). pose proof (i_auto _ _ (run_inv ops _ _ I)) as A. cbn [app] in A.
  unfold well_grouped. unfold auto_ in A. rewrite A. discriminate.
Qed.

(** ** When nobody is hasty *)
Definition readf (x : bool) (e : cev) := match e with IFirst => true | IMedia _ | IEof => false | _ => x end.
Definition actf (x : bool) (e : cev) := match e with OActive b => b | _ => x end.
Definition conff (x : option nat) (e : cev) := match e with OConf c => c | _ => x end.
Definition choosef (x : bool) (e : cev) := match e with IFirst => true | IChosen _ => false | _ => x end.
Lemma reading_app l m : reading (l ++ m) = fold_left readf m (reading l).
Proof. apply fold_left_app. Qed.
Lemma active_app l m : active (l ++ m) = fold_left actf m (active l).
Proof. apply fold_left_app. Qed.
Lemma conf_app l m : conf (l ++ m) = fold_left conff m (conf l).
Proof. apply fold_left_app. Qed.
Lemma choosing_app l m : choosing (l ++ m) = fold_left choosef m (choosing l).
Proof. apply fold_left_app. Qed.
Lemma media_app l m : media (l ++ m) = media l + media m.
Proof. induction l as [|e l IH]; [reflexivity|]. destruct e as [[|]| | | | | | | | |]; cbn; rewrite IH; reflexivity. Qed.
Lemma given_app l m : given (l ++ m) = given l + given m.
Proof. induction l as [|e l IH]; [reflexivity|]. destruct e; cbn; rewrite IH; reflexivity. Qed.
Lemma written_app l m : written (l ++ m) = written l + written m.
Proof. induction l as [|e l IH]; [reflexivity|]. destruct e; cbn; rewrite IH; reflexivity. Qed.

Definition isread (p : option phase) : bool := match p with Some PChoose | Some (PRun _) => true | _ => false end.
Definition ischoose (p : option phase) : bool := match p with Some PChoose => true | _ => false end.
Record Pat (s : enc) (l : clog) : Prop := {
  p_late : c_late s = [];
  p_choose : choosing l = ischoose (c_cur s);
  p_key : c_cur s = Some (PRun true) -> c_group s <> None;
  p_read : reading l = isread (c_cur s);
  p_act : active l = isread (c_cur s);
  p_media : media l = c_media s;
  p_conf : conf l = None \/ conf l = Some (c_media s);
  p_run : forall h, c_cur s = Some (PRun h) -> conf l = Some (c_media s);
  p_count : given l = written l }.

Lemma patient_app l m : patient (l ++ m) -> patient l.
Proof. intros P a on b ->. apply (P a on (b ++ m)). rewrite <- app_assoc. reflexivity. Qed.

Ltac fin := cbn [c_late c_cur c_group c_media c_groups c_active c_conf fst snd];
  rewrite ?choosing_app, ?reading_app, ?active_app, ?media_app, ?conf_app, ?given_app, ?written_app; cbn; try reflexivity; try discriminate; try assumption; try congruence; try lia; auto.
Lemma step_pat s l o : patient (l ++ snd (c_step s o)) -> Inv s l -> Pat s l -> Pat (fst (c_step s o)) (l ++ snd (c_step s o)).
Proof.
  intros Q [_ R] [L C K Rd Ac M Cf Cr N]. destruct s as [n cur late grp k act cf]. cbn [c_media c_cur c_late c_group c_groups c_active c_conf] in *. subst late.
  destruct o as [on| |i|key|]; cbn [c_step c_media c_cur c_late c_group c_groups c_active c_conf existsb] in *.
  - assert (X : choosing l = false) by (destruct cur as [[| |h]|]; cbn [snd] in Q; eapply (Q l on); reflexivity). rewrite X in C.
    destruct cur as [[| |h]|]; try discriminate C; destruct on, grp as [g|]; try (specialize (R ltac:(discriminate)); discriminate R); unfold c_finally; split; fin.
  - destruct cur as [[| |h]|]; try (cbn [fst snd]; rewrite app_nil_r; split; solve [reflexivity|assumption]). split; fin.
  - destruct cur as [[| |h]|]; try (cbn [fst snd]; rewrite app_nil_r; split; solve [reflexivity|assumption]).
    destruct (i =? n) eqn:E; [apply Nat.eqb_eq in E; rewrite E in *|cbn [fst snd]; rewrite app_nil_r; split; solve [reflexivity|assumption]]. split; fin.
  - destruct cur as [[| |h]|]; try (cbn [fst snd]; rewrite app_nil_r; split; solve [reflexivity|assumption]). destruct key; [|destruct h].
    + specialize (Cr _ eq_refl). destruct grp; split; fin.
    + specialize (Cr _ eq_refl). specialize (K eq_refl). destruct grp; [|congruence]. split; fin.
    + cbn [fst snd]; rewrite app_nil_r; split; solve [reflexivity|assumption].
  - destruct cur as [[| |h]|]; try (cbn [fst snd]; rewrite app_nil_r; split; solve [reflexivity|assumption]); unfold c_finally, c_emit; destruct grp as [g|]; split; fin.
Qed.
Lemma run_pat ops : forall s l, patient (l ++ snd (c_run s ops)) -> Inv s l -> Pat s l -> Pat (fst (c_run s ops)) (l ++ snd (c_run s ops)).
Proof.
  induction ops as [|o ops IH]; intros s l Q I P; [cbn; rewrite app_nil_r; exact P|]. cbn [c_run] in *.
  pose proof (step_inv s l o I) as J. pose proof (step_pat s l o) as S1. destruct (c_step s o) as [s1 a]. cbn [fst snd] in J, S1. specialize (IH s1 (l ++ a)).
  destruct (c_run s1 ops) as [s2 b]. cbn [fst snd] in *. rewrite app_assoc in *. apply IH; [exact Q|exact J|]. apply S1; [|exact I|exact P]. eapply patient_app, Q.
Qed.
Lemma pat ops : patient (snd (c_run c_init ops)) -> Pat (fst (c_run c_init ops)) (snd (c_run c_init ops)).
Proof. intros Q. apply (run_pat ops c_init []); [exact Q|split; [reflexivity|cbn; congruence]|]. split; cbn; auto; discriminate. Qed.

Lemma all_written ops : patient (snd (c_run c_init ops)) -> written (snd (c_run c_init ops)) = given (snd (c_run c_init ops)).
Proof. intros Q. symmetry. apply (pat ops Q). Qed.
Lemma active_reading ops : patient (snd (c_run c_init ops)) -> active (snd (c_run c_init ops)) = reading (snd (c_run c_init ops)).
Proof. intros Q. destruct (pat ops Q). congruence. Qed.
Lemma conf_media ops i : patient (snd (c_run c_init ops)) -> conf (snd (c_run c_init ops)) = Some i -> i = media (snd (c_run c_init ops)).
Proof. intros Q E. destruct (pat ops Q). destruct p_conf0; congruence. Qed.
(** No more than is given, always *)
Lemma step_le s o : written (snd (c_step s o)) <= given (snd (c_step s o)).
Proof.
  destruct s as [n cur late grp k act cf]. destruct o as [on| |i|key|]; cbn [c_step c_media c_cur c_late c_group c_groups c_active c_conf].
  - destruct cur as [[| |h]|], on, grp; cbn; lia.
  - destruct cur as [[| |h]|]; cbn; lia.
  - destruct (existsb (Nat.eqb i) late); [destruct grp; cbn; lia|]. destruct cur as [[| |h]|]; try (cbn; lia). destruct (i =? n); cbn; lia.
  - destruct cur as [[| |h]|]; try (cbn; lia). destruct key; [destruct grp; cbn; lia|]. destruct h; [|cbn; lia]. destruct grp; cbn; lia.
  - destruct cur as [[| |h]|]; try (cbn; lia); destruct grp; cbn; lia.
Qed.
Lemma no_more ops : forall s, written (snd (c_run s ops)) <= given (snd (c_run s ops)).
Proof.
  induction ops as [|o ops IH]; intros s; [reflexivity|]. cbn [c_run]. pose proof (step_le s o) as L. destruct (c_step s o) as [s1 a]. specialize (IH s1).
  destruct (c_run s1 ops) as [s2 b]. cbn [snd] in *. rewrite written_app, given_app. lia.
Qed.

(** A way to see that a log is patient *)
Fixpoint okp (x : bool) (l : clog) : bool := match l with [] => true | e :: l => match e with IMedia _ => negb x | _ => true end && okp (choosef x e) l end.
Lemma okp_at a : forall x on b, okp x (a ++ IMedia on :: b) = true -> fold_left choosef a x = false.
Proof.
  induction a as [|e a IH]; intros x on b H; cbn [app okp fold_left] in *; apply andb_prop in H; destruct H as [H1 H2]; [destruct x; [discriminate|reflexivity]|].
  eapply IH, H2.
Qed.
Lemma okp_patient l : okp false l = true -> patient l.
Proof. intros H a on b ->. exact (okp_at a false on b H). Qed.

(** ** When the earlier ones are done before *)
Record Settled (s : enc) (l : clog) : Prop := {
  t_late : forall i, In i (c_late s) -> i < c_media s \/ i = c_media s /\ c_cur s = None;
  t_key : c_cur s = Some (PRun true) -> c_group s <> None;
  t_read : reading l = isread (c_cur s);
  t_act : isread (c_cur s) = true -> active l = true;
  t_some : active l = true -> isread (c_cur s) = true \/ c_late s <> [];
  t_media : media l = c_media s;
  t_count : given l = written l }.
Lemma settled_app l m : settled (l ++ m) -> settled l.
Proof. intros P a on b ->. apply (P a on (b ++ m)). rewrite <- app_assoc. reflexivity. Qed.

Lemma step_settled s l o : settled (l ++ snd (c_step s o)) -> Inv s l -> Settled s l -> Settled (fst (c_step s o)) (l ++ snd (c_step s o)).
Proof.
  intros Q [_ R] [L K Rd Ac So M N]. destruct s as [n cur late grp k act cf]. cbn [c_media c_cur c_late c_group c_groups c_active c_conf] in *.
  destruct o as [on| |i|key|]; cbn [c_step c_media c_cur c_late c_group c_groups c_active c_conf] in *.
  - assert (L' : forall i, In i late -> i < (if on then S n else n) \/ i = (if on then S n else n) /\ (if on then Some PFirst else None) = None).
    { intros i H. destruct (L i H) as [H1|[H1 H2]], on; try lia. right. auto. }
    assert (L2 : forall i, n = i \/ In i late -> i < (if on then S n else n) \/ i = (if on then S n else n) /\ (if on then Some PFirst else None) = None).
    { intros i [<-|H]; [|apply L', H]. destruct on; [lia|right; auto]. }
    destruct cur as [[| |h]|]; destruct on, grp as [g|]; try (specialize (R ltac:(discriminate)); discriminate R); unfold c_finally; split; fin;
      try (intros _; right; discriminate); try (intros H; destruct (So H) as [X|X]; [discriminate X|auto]).
  - destruct cur as [[| |h]|]; try (cbn [fst snd]; rewrite app_nil_r; split; solve [reflexivity|assumption]). split; fin.
    intros i H. destruct (L i H) as [X|[_ X]]; [auto|discriminate].
  - destruct (existsb (Nat.eqb i) late) eqn:E.
    + apply existsb_exists in E. destruct E as (j & Hj & E). apply Nat.eqb_eq in E. subst j.
      unfold c_finally in *. cbn [fst snd c_media c_cur c_late c_group c_groups c_active c_conf] in *.
      assert (X : isread cur = false).
      { destruct (isread cur) eqn:Y; [|reflexivity]. rewrite <- Rd in Y. pose proof (Q l i _ eq_refl Rd) as Z. rewrite M in Z. exfalso.
        destruct (L i Hj) as [H|[_ H]]; [lia|subst cur; cbn in Y; congruence]. }
      assert (G : grp = None) by (destruct grp; [rewrite (R ltac:(discriminate)) in X; discriminate|reflexivity]). subst grp.
      split; fin; try (intros H; rewrite H in X; discriminate X).
      intros j H. apply filter_In in H. apply L, H.
    + destruct cur as [[| |h]|]; try (cbn [fst snd]; rewrite app_nil_r; split; solve [reflexivity|assumption]).
      destruct (i =? n) eqn:E'; [|cbn [fst snd]; rewrite app_nil_r; split; solve [reflexivity|assumption]]. split; fin.
      intros j H. destruct (L j H) as [X|[_ X]]; [auto|discriminate].
  - destruct cur as [[| |h]|]; try (cbn [fst snd]; rewrite app_nil_r; split; solve [reflexivity|assumption]).
    assert (L' : forall j, In j late -> j < n \/ j = n /\ Some (PRun true) = @None phase) by (intros j H; destruct (L j H) as [X|[_ X]]; [auto|discriminate]).
    specialize (Ac eq_refl). destruct key; [|destruct h].
    + destruct grp; split; fin.
    + specialize (K eq_refl). destruct grp; [|congruence]. split; fin.
    + cbn [fst snd]; rewrite app_nil_r; split; try assumption. auto.
  - destruct cur as [[| |h]|]; try (cbn [fst snd]; rewrite app_nil_r; split; solve [reflexivity|assumption]); unfold c_finally, c_emit; destruct grp as [g|]; split; fin;
      intros j H; destruct (L j H) as [X|[X _]]; auto.
Qed.
Lemma run_settled ops : forall s l, settled (l ++ snd (c_run s ops)) -> Inv s l -> Settled s l -> Settled (fst (c_run s ops)) (l ++ snd (c_run s ops)).
Proof.
  induction ops as [|o ops IH]; intros s l Q I P; [cbn; rewrite app_nil_r; exact P|]. cbn [c_run] in *.
  pose proof (step_inv s l o I) as J. pose proof (step_settled s l o) as S1. destruct (c_step s o) as [s1 a]. cbn [fst snd] in J, S1. specialize (IH s1 (l ++ a)).
  destruct (c_run s1 ops) as [s2 b]. cbn [fst snd] in *. rewrite app_assoc in *. apply IH; [exact Q|exact J|]. apply S1; [|exact I|exact P]. eapply settled_app, Q.
Qed.
Lemma settl ops : settled (snd (c_run c_init ops)) -> Settled (fst (c_run c_init ops)) (snd (c_run c_init ops)).
Proof. intros Q. apply (run_settled ops c_init []); [exact Q|split; [reflexivity|cbn; congruence]|]. split; cbn; auto; try discriminate. intros i []. Qed.
Lemma settled_written ops : settled (snd (c_run c_init ops)) -> written (snd (c_run c_init ops)) = given (snd (c_run c_init ops)).
Proof. intros Q. symmetry. apply (settl ops Q). Qed.
Lemma settled_active ops : settled (snd (c_run c_init ops)) -> reading (snd (c_run c_init ops)) = true -> active (snd (c_run c_init ops)) = true.
Proof. intros Q H. destruct (settl ops Q). apply t_act0. congruence. Qed.

Definition oks_step (x : nat * bool * bool) (e : cev) : nat * bool * bool :=
  let '(m, r, ok) := x in ((match e with IMedia true => S m | _ => m end), readf r e, ok && match e with IChosen i => negb r || (i =? m) | _ => true end).
Lemma oks_at l : fold_left oks_step l (0, false, true) = (media l, reading l, snd (fold_left oks_step l (0, false, true))).
Proof.
  induction l as [|e l IH] using rev_ind; [reflexivity|]. rewrite fold_left_app, media_app, reading_app, IH. cbn. f_equal. f_equal.
  destruct e as [[|]| | | | | | | | |]; cbn; lia.
Qed.
Lemma oks_down l : forall x, snd (fold_left oks_step l x) = true -> snd x = true.
Proof. induction l as [|e l IH]; intros [[m r] ok] H; [exact H|]. apply IH in H. cbn in H. apply andb_prop in H. apply H. Qed.
Lemma oks_settled l : snd (fold_left oks_step l (0, false, true)) = true -> settled l.
Proof.
  intros H a i b -> R. rewrite fold_left_app in H. cbn [fold_left] in H. rewrite oks_at in H. apply oks_down in H. cbn [oks_step snd] in H.
  apply andb_prop in H. destruct H as [_ H]. rewrite R in H. apply Nat.eqb_eq, H.
Qed.
