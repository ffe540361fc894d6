(** The loop announcing broadcasts. *)
From Coq Require Import Permutation.
From Coq Require Import NArith ZArith List Lia Bool.
From Coq Require Import Init.Byte Strings.Byte.
From Verif.Model Require Import OriginSys Base Coding Message ErrorCode Stream Map Publisher.
From Verif.Spec Require Import PublisherSpec.
From Verif.Proofs Require Import MapP OriginTop ServeP.
Import ListNotations.
Open Scope nat_scope.

Lemma nrun_snoc ops : forall s o, nrun s (ops ++ [o]) =
  let (s1, tr) := nrun s ops in let (s2, x) := nstep s1 o in (s2, tr ++ [(o, x)]).
Proof.
  induction ops as [|a ops IH]; intros s o; cbn [nrun app].
  - destruct (nstep s o); reflexivity.
  - destruct (nstep s a) as [s1 x]. rewrite IH. destruct (nrun s1 ops) as [s2 tr].
    destruct (nstep s2 o); reflexivity.
Qed.

Lemma fed_snoc tr e : fed (tr ++ [e]) = fed tr ++ fed_of e.
Proof. unfold fed. rewrite flat_map_app. cbn. rewrite app_nil_r. reflexivity. Qed.
Lemma closes_snoc tr e : closes (tr ++ [e]) = closes tr ++ closes_of e.
Proof. unfold closes. rewrite flat_map_app. cbn. rewrite app_nil_r. reflexivity. Qed.
Lemma sent_snoc tr e : sent (tr ++ [e]) = sent tr ++ sent_of e.
Proof. unfold sent. rewrite flat_map_app. cbn. rewrite app_nil_r. reflexivity. Qed.
Lemma about_app s l1 l2 : about s (l1 ++ l2) = about s l1 ++ about s l2.
Proof. apply flat_map_app. Qed.
Lemma count_app b l1 l2 : count b (l1 ++ l2) = count b l1 + count b l2.
Proof. induction l1; cbn; [reflexivity|]. rewrite IHl1. lia. Qed.
Lemma at_path_app s l1 l2 : at_path s (l1 ++ l2) = at_path s l1 ++ at_path s l2.
Proof. unfold at_path. rewrite filter_app, map_app. reflexivity. Qed.
Lemma at_path_one s p b : at_path s [(p, b)] = if str_eqb p s then [b] else [].
Proof. unfold at_path. cbn. destruct (str_eqb p s); reflexivity. Qed.
Lemma at_path_perm s l1 l2 : Permutation l1 l2 -> Permutation (at_path s l1) (at_path s l2).
Proof.
  intros H. apply Permutation_map. induction H; cbn; auto.
  - destruct (str_eqb (fst x) s); auto.
  - destruct (str_eqb (fst x) s), (str_eqb (fst y) s); auto. apply perm_swap.
  - eapply perm_trans; eauto.
Qed.
Lemma view_snoc s l a : view s (l ++ [a]) = match about_of s a with [] => view s l | b :: _ => b end.
Proof.
  unfold view. rewrite about_app. cbn. rewrite app_nil_r.
  destruct a as [x|x]; cbn; destruct (str_eqb x s); rewrite ?app_nil_r, ?last_last; reflexivity.
Qed.

Lemma str_eqb_eq a b : str_eqb a b = true <-> a = b.
Proof. destruct (str_eqb_spec a b); split; auto; discriminate. Qed.

Lemma remove_nth_perm {A} j (l : list A) x : nth_error l j = Some x -> Permutation l (x :: remove_nth j l).
Proof.
  intros H. unfold remove_nth. apply nth_error_split in H. destruct H as (l1 & l2 & -> & <-).
  rewrite firstn_app, firstn_all, Nat.sub_diag. cbn [firstn]. rewrite app_nil_r.
  change (l1 ++ x :: l2) with (l1 ++ [x] ++ l2). rewrite app_assoc.
  replace (S (length l1)) with (length (l1 ++ [x])) by (rewrite app_length; cbn; lia).
  rewrite skipn_app, skipn_all, Nat.sub_diag. cbn [skipn app]. rewrite <- app_assoc. symmetry. apply Permutation_middle.
Qed.

Lemma set_add_in s l x : In x (set_add s l) <-> x = s \/ In x l.
Proof.
  unfold set_add. destruct (existsb (str_eqb s) l) eqn:E.
  - apply existsb_exists in E. destruct E as (y & H & F). apply str_eqb_eq in F. subst y. intuition. subst. exact H.
  - rewrite in_app_iff. cbn. intuition.
Qed.
Lemma set_del_in s l x : In x (set_del s l) <-> x <> s /\ In x l.
Proof.
  unfold set_del. rewrite filter_In, negb_true_iff. split.
  - intros (H & F). split; [|exact H]. intros ->. rewrite str_eqb_refl in F. discriminate.
  - intros (N & H). split; [exact H|]. destruct (str_eqb s x) eqn:F; [|reflexivity]. apply str_eqb_eq in F. congruence.
Qed.

#[local] Arguments at_path : simpl never.

(** What is owed: announcements fed are queued, waited for, or reported ended. *)
Record ninv (s : ann) (tr : list nevent) : Prop := {
  ni_closed : forall b, In b (an_closed s) <-> In b (closes tr);
  ni_over : an_over s = true <-> (exists o x, In (o, x) tr /\ (x = NStopped \/ exists l, x = NFinished l));
  ni_parts : an_over s = false -> exists ended, Permutation (fed tr) (an_queue s ++ an_tasks s ++ ended) /\
    (forall t, In t ended -> In (snd t) (closes tr)) /\
    (forall p, count true (about p (sent tr)) = length (at_path p (an_tasks s)) + length (at_path p ended)) /\
    (forall p, count false (about p (sent tr)) = length (at_path p ended));
  ni_active : an_over s = false -> forall p, In p (an_active s) <-> view p (sent tr) = true;
  ni_held : forall p, In p (an_active s) -> at_path p (an_tasks s) <> [];
  ni_nodup : NoDup (an_active s);
  ni_prefix : exists l, map fst (fed tr) = flat_map (fun a => match a with Active p => [p] | Ended _ => [] end) (sent tr) ++ l /\
    (an_over s = false -> l = map fst (an_queue s));
  ni_le : forall p, count false (about p (sent tr)) <= count true (about p (sent tr)) }.

Lemma about_ended_map p l : NoDup l -> about p (map Ended l) = if existsb (str_eqb p) l then [false] else [].
Proof.
  induction l as [|a l IH]; intros N; [reflexivity|]. inversion N; subst. cbn [map existsb]. change (about p (Ended a :: map Ended l)) with (about_of p (Ended a) ++ about p (map Ended l)). rewrite IH by assumption. cbn [about_of].
  rewrite (str_eqb_sym a p). destruct (str_eqb p a) eqn:E; cbn; [|reflexivity].
  apply str_eqb_eq in E. subst a. destruct (existsb (str_eqb p) l) eqn:F; [|reflexivity].
  apply existsb_exists in F. destruct F as (y & H & F). apply str_eqb_eq in F. subst. contradiction.
Qed.

Lemma existsb_str p l : existsb (str_eqb p) l = true <-> In p l.
Proof.
  rewrite existsb_exists. split.
  - intros (y & H & F). apply str_eqb_eq in F. subst. exact H.
  - intros H. exists p. split; [exact H|apply str_eqb_refl].
Qed.

Lemma ninv_new : ninv ann_new [].
Proof.
  split; cbn; auto; try tauto.
  - split; [discriminate|]. intros (o & x & [] & _).
  - intros _. exists []. cbn. repeat split; auto. 
  - intros _ p. split; [tauto|discriminate].
  - constructor.
  - exists []. auto.
Qed.

(** Steps that send nothing. *)
Lemma ninv_quiet s tr o x s' : ninv s tr -> sent_of (o, x) = [] ->
  an_closed s' = rev (closes_of (o, x)) ++ an_closed s -> an_queue s' = an_queue s ++ fed_of (o, x) ->
  an_active s' = an_active s -> an_tasks s' = an_tasks s -> an_over s' = an_over s -> x <> NStopped -> (forall l, x <> NFinished l) ->
  ninv s' (tr ++ [(o, x)]).
Proof.
  intros I E1 E2 E3 E4 E5 E6 X1 X2. destruct I as [J1 J2 J3 J4 J5 J6 J7 J8].
  assert (ES : sent (tr ++ [(o, x)]) = sent tr) by (rewrite sent_snoc, E1; apply app_nil_r).
  split; rewrite ?ES, ?E4, ?E5, ?E6, ?fed_snoc, ?closes_snoc; auto.
  - intros b. rewrite E2, !in_app_iff, <- in_rev, J1. tauto.
  - rewrite J2. split; intros (o' & x' & H & K).
    + exists o', x'. split; [apply in_or_app; auto|exact K].
    + apply in_app_or in H. destruct H as [H|[H|[]]]; [eauto|]. injection H as <- <-.
      destruct K as [->|(l & ->)]; [contradiction|]. exfalso. apply (X2 l eq_refl).
  - intros O. destruct (J3 O) as (e & P & Q & R1 & R2). exists e. split.
    + rewrite E3. rewrite P, <- !app_assoc. apply Permutation_app_head. rewrite app_assoc. apply Permutation_app_comm.
    + split; [|auto]. intros t H. apply in_or_app. left. auto.
  - destruct J7 as (l & P & Q). rewrite map_app, P, <- app_assoc. exists (l ++ map fst (fed_of (o, x))).
    split; [reflexivity|]. intros O. rewrite (Q O), E3, map_app. reflexivity.
Qed.

Lemma over_iff_snoc (tr : list nevent) o x (b : bool) : 
  (b = true <-> (exists o' x', In (o', x') tr /\ (x' = NStopped \/ exists l, x' = NFinished l))) ->
  forall b' : bool, (b' = true <-> b = true \/ x = NStopped \/ exists l, x = NFinished l) ->
  (b' = true <-> (exists o' x', In (o', x') (tr ++ [(o, x)]) /\ (x' = NStopped \/ exists l, x' = NFinished l))).
Proof.
  intros H b' E. rewrite E, H. split.
  - intros [(o' & x' & K & L)|L].
    + exists o', x'. split; [apply in_or_app; auto|exact L].
    + exists o, x. split; [apply in_or_app; cbn; auto|exact L].
  - intros (o' & x' & K & L). apply in_app_or in K. destruct K as [K|[K|[]]]; [left; eauto|].
    injection K as <- <-. right. exact L.
Qed.

Lemma ninv_step s tr o s' x : ninv s tr -> nstep s o = (s', x) -> ninv s' (tr ++ [(o, x)]).
Proof.
  intros I H. unfold nstep in H. destruct o as [p b|b| |peer j ks].
  - injection H as <- <-. eapply ninv_quiet; try exact I; try reflexivity; try discriminate.
  - injection H as <- <-. eapply ninv_quiet; try exact I; try reflexivity; try discriminate. cbn. rewrite app_nil_r. reflexivity.
  - injection H as <- <-. eapply ninv_quiet; try exact I; try reflexivity; try discriminate. cbn. rewrite app_nil_r. reflexivity.
  - assert (Q : forall y, (y = NBad \/ y = NIdle) -> ninv s (tr ++ [(NTurn peer j ks, y)])).
    { intros y [->| ->]; eapply ninv_quiet; try exact I; try reflexivity; try discriminate; cbn; rewrite app_nil_r; reflexivity. }
    destruct (an_over s) eqn:O; [injection H as <- <-; auto|].
    assert (STOP : forall q g c, an_closed s = c ->
      ninv (Ann q g c [] [] true) (tr ++ [(NTurn peer j ks, NStopped)])).
    { intros q g c <-. destruct I as [J1 J2 J3 J4 J5 J6 J7 J8].
      split; cbn; rewrite ?sent_snoc, ?closes_snoc, ?fed_snoc; cbn; rewrite ?app_nil_r; auto; try discriminate; try constructor; try tauto.
      - intros _. exists (NTurn peer j ks), NStopped. split; [apply in_or_app; cbn; auto|auto].
      - destruct J7 as (l & P & Q'). exists l. split; [exact P|discriminate]. }
    destruct I as [J1 J2 J3 J4 J5 J6 J7 J8]. specialize (J3 O). specialize (J4 O).
    destruct J3 as (ended & P & C & T1 & T2).
    assert (MAIN : (match an_queue s with
        | (suffix, b) :: q =>
            (Ann q (an_gone s) (an_closed s) (set_add suffix (an_active s)) (an_tasks s ++ [(suffix, b)]) false,
             NSent [Active suffix])
        | [] =>
          if an_gone s then
            (Ann [] true (an_closed s) [] [] true, NFinished (map Ended (shuffle ks (an_active s))))
          else
            match nth_error (an_tasks s) j with
            | Some (suffix, b) =>
                if closed_task s (suffix, b) then
                  (Ann [] false (an_closed s) (set_del suffix (an_active s)) (remove_nth j (an_tasks s)) false,
                   NSent [Ended suffix])
                else (s, if existsb (closed_task s) (an_tasks s) then NBad else NIdle)
            | None => (s, if existsb (closed_task s) (an_tasks s) then NBad else NIdle)
            end
        end) = (s', x) -> ninv s' (tr ++ [(NTurn peer j ks, x)])).
    { clear H. intros H. destruct (an_queue s) as [|[p b] q] eqn:EQ.
      - destruct (an_gone s).
        + injection H as <- <-.
          pose proof (shuffle_perm ks (an_active s)) as PS.
          assert (NS : NoDup (shuffle ks (an_active s))) by (eapply Permutation_NoDup; [symmetry; exact PS|exact J6]).
          split; cbn; rewrite ?sent_snoc, ?closes_snoc, ?fed_snoc; cbn [sent_of closes_of fed_of snd]; rewrite ?app_nil_r; auto; try discriminate; try constructor; try tauto.
          * intros _. exists (NTurn peer j ks), (NFinished (map Ended (shuffle ks (an_active s)))). split; [apply in_or_app; cbn; auto|eauto].
          * destruct J7 as (l & P' & Q'). exists l. split; [|discriminate]. rewrite P', flat_map_app. f_equal.
            replace (flat_map _ (map Ended _)) with (@nil bytes); [rewrite app_nil_r; reflexivity|].
            clear. induction (shuffle ks (an_active s)); auto.
          * intros p. rewrite about_app, !count_app, about_ended_map by exact NS.
            destruct (existsb (str_eqb p) (shuffle ks (an_active s))) eqn:X.
            -- cbn. apply existsb_str in X. apply (Permutation_in _ PS) in X. apply J5 in X.
               rewrite T1, T2. destruct (at_path p (an_tasks s)); [contradiction|cbn; lia].
            -- cbn. specialize (J8 p). lia.
        + destruct (nth_error (an_tasks s) j) as [[p b]|] eqn:EJ.
          2: { injection H as <- <-. apply Q. destruct (existsb (closed_task s) (an_tasks s)); auto. }
          destruct (closed_task s (p, b)) eqn:EC.
          2: { injection H as <- <-. apply Q. destruct (existsb (closed_task s) (an_tasks s)); auto. }
          injection H as <- <-. pose proof (remove_nth_perm _ _ _ EJ) as PT.
          assert (CB : In b (closes tr)).
          { apply J1. unfold closed_task in EC. apply existsb_exists in EC. destruct EC as (y & H1 & H2).
            apply Nat.eqb_eq in H2. cbn in H2. subst. exact H1. }
          assert (LT : forall p', length (at_path p' (an_tasks s)) = length (at_path p' [(p, b)]) + length (at_path p' (remove_nth j (an_tasks s)))).
          { intros p'. rewrite (Permutation_length (at_path_perm p' _ _ PT)).
            change ((p, b) :: remove_nth j (an_tasks s)) with ([(p, b)] ++ remove_nth j (an_tasks s)).
            rewrite at_path_app, app_length. reflexivity. }
          split; cbn; rewrite ?sent_snoc, ?closes_snoc, ?fed_snoc; cbn [sent_of closes_of fed_of snd]; rewrite ?app_nil_r; auto.
          * eapply over_iff_snoc; [exact J2|]. rewrite O. split; [discriminate|]. intros [X|[X|(l & X)]]; discriminate.
          * intros _. exists ((p, b) :: ended). split.
            -- rewrite P. cbn. rewrite PT at 1. cbn. apply Permutation_middle.
            -- split; [intros t [<-|Ht]; [exact CB|auto]|]. change ((p, b) :: ended) with ([(p, b)] ++ ended).
               split; intros p'; rewrite about_app, count_app, ?at_path_app, ?app_length, ?T1, ?T2, ?LT, ?at_path_one;
                 cbn; destruct (str_eqb p p'); cbn; lia.
          * intros _ p'. rewrite set_del_in, view_snoc, J4. cbn. destruct (str_eqb_spec p p') as [->|N].
            -- split; [tauto|discriminate].
            -- intuition.
          * intros p'. rewrite set_del_in. intros (N & Hp) E. apply (J5 p' Hp).
            pose proof (LT p') as L. change (at_path p' (remove_nth j (an_tasks s)) = []) in E. rewrite E, at_path_one in L.
            destruct (str_eqb_spec p p') as [->|_]; [congruence|]. cbn in L.
            destruct (at_path p' (an_tasks s)); [reflexivity|discriminate].
          * apply NoDup_filter. exact J6.
          * destruct J7 as (l & P' & Q'). exists l. split; [|auto]. rewrite P', flat_map_app. cbn. rewrite app_nil_r. reflexivity.
          * intros p'. rewrite about_app, !count_app. rewrite T1, T2. pose proof (LT p') as L. revert L.
            rewrite at_path_one. cbn. destruct (str_eqb p p'); cbn; lia.
      - injection H as <- <-. split; cbn; rewrite ?sent_snoc, ?closes_snoc, ?fed_snoc; cbn [sent_of closes_of fed_of snd]; rewrite ?app_nil_r; auto.
        + eapply over_iff_snoc; [exact J2|]. rewrite O. split; [discriminate|]. intros [X|[X|(l & X)]]; discriminate.
        + intros _. exists ended. split.
          * rewrite P. cbn. rewrite <- app_assoc. cbn.
            rewrite (app_assoc q). rewrite (app_assoc q (an_tasks s)). apply Permutation_middle.
          * split; [auto|]. split; intros p'; rewrite about_app, count_app, ?at_path_app, ?app_length, ?T1, ?T2, ?at_path_one;
                 cbn; destruct (str_eqb p p'); cbn; lia.
        + intros _ p'. rewrite set_add_in, view_snoc, J4. cbn. destruct (str_eqb_spec p p') as [->|N]; intuition congruence.
        + intros p'. rewrite set_add_in. change (p' = p \/ In p' (an_active s) -> at_path p' (an_tasks s ++ [(p, b)]) <> []). rewrite at_path_app. intros [->|Hp] E; apply app_eq_nil in E; destruct E as [E1 E2].
          * unfold at_path in E2. cbn in E2. rewrite str_eqb_refl in E2. discriminate.
          * exact (J5 p' Hp E1).
        + unfold set_add. destruct (existsb (str_eqb p) (an_active s)) eqn:X; [exact J6|].
          apply NoDup_app_intro; [exact J6|constructor; [intros []|constructor]|].
          intros y Hy [<-|[]]. apply existsb_str in Hy. congruence.
        + destruct J7 as (l & P' & Q'). rewrite (Q' O) in P'. cbn in P'. exists (map fst q). split; [|auto].
          rewrite P', flat_map_app. cbn. rewrite <- app_assoc. reflexivity.
        + intros p'. rewrite about_app, !count_app. specialize (J8 p'). cbn. destruct (str_eqb p p'); cbn; lia. }
    destruct peer; try (injection H as <- <-; apply STOP; reflexivity); exact (MAIN H).
Qed.

Lemma ninv_run ops : forall s tr, nrun ann_new ops = (s, tr) -> ninv s tr.
Proof.
  induction ops as [|o ops IH] using rev_ind; intros s tr H.
  - injection H as <- <-. apply ninv_new.
  - rewrite nrun_snoc in H. destruct (nrun ann_new ops) as [s1 t1].
    destruct (nstep s1 o) as [s2 x] eqn:E. injection H as <- <-.
    eapply ninv_step; [apply IH; reflexivity|exact E].
Qed.

(** ** Statements *)
Lemma actives_in_order ops s tr : nrun ann_new ops = (s, tr) ->
  exists l, map fst (fed tr) = flat_map (fun a => match a with Active p => [p] | Ended _ => [] end) (sent tr) ++ l.
Proof. intros H. destruct (ni_prefix _ _ (ninv_run _ _ _ H)) as (l & P & _). eauto. Qed.

Lemma ended_le_active ops s tr p : nrun ann_new ops = (s, tr) ->
  count false (about p (sent tr)) <= count true (about p (sent tr)) /\ count true (about p (sent tr)) <= length (at_path p (fed tr)).
Proof.
  intros H. pose proof (ninv_run _ _ _ H) as I. split; [apply (ni_le _ _ I)|].
  destruct (ni_prefix _ _ I) as (l & P & _).
  assert (A : forall l, length (at_path p l) = length (filter (fun x => str_eqb x p) (map fst l))).
  { clear. intros l. unfold at_path. rewrite map_length. induction l as [|[a b] l IH]; cbn; [reflexivity|]. destruct (str_eqb a p); cbn; auto. }
  assert (B : forall l, count true (about p l) = length (filter (fun x => str_eqb x p) (flat_map (fun a => match a with Active p => [p] | Ended _ => [] end) l))).
  { clear. induction l as [|a l IH]; [reflexivity|].
    change (about p (a :: l)) with (about_of p a ++ about p l). rewrite count_app, IH. destruct a as [a|a]; cbn; destruct (str_eqb a p); reflexivity. }
  rewrite A, B, P, filter_app, app_length. lia.
Qed.

Lemma open_count p tr q t e : Permutation (fed tr) (q ++ t ++ e) -> q = [] -> (forall x, In x e -> In (snd x) (closes tr)) ->
  (forall x, In x t -> ~ In (snd x) (closes tr)) -> length (open_at p tr) = length (at_path p t).
Proof.
  intros P -> E T. cbn in P. unfold open_at.
  assert (PF : forall (f : nat -> bool) l1 l2, Permutation l1 l2 -> Permutation (filter f l1) (filter f l2)).
  { clear. intros f l1 l2 H. induction H; cbn; auto.
    - destruct (f x); auto.
    - destruct (f x), (f y); auto. apply perm_swap.
    - eapply perm_trans; eauto. }
  rewrite (Permutation_length (PF _ _ _ (at_path_perm p _ _ P))), at_path_app, filter_app, app_length.
  assert (X : forall b, existsb (Nat.eqb b) (closes tr) = true <-> In b (closes tr)).
  { intros b. rewrite existsb_exists. split; [intros (y & H1 & H2); apply Nat.eqb_eq in H2; subst; exact H1|].
    intros H. exists b. split; [exact H|apply Nat.eqb_refl]. }
  assert (IN : forall b l, In b (at_path p l) -> exists x, In x l /\ snd x = b).
  { intros b l Hb. unfold at_path in Hb. apply in_map_iff in Hb. destruct Hb as (x & <- & Hx). apply filter_In in Hx. exists x. tauto. }
  rewrite (filter_none _ (at_path p e)).
  2: { intros b Hb. apply IN in Hb. destruct Hb as (x & Hx & <-). apply negb_false_iff, X, E, Hx. }
  cbn. rewrite Nat.add_0_r. f_equal.
  assert (FA : forall (f : nat -> bool) l, (forall x, In x l -> f x = true) -> filter f l = l).
  { clear. intros f l. induction l as [|a l IH]; intros H; cbn; [reflexivity|]. rewrite (H a) by (cbn; auto). f_equal. apply IH. intros x Hx. apply H; cbn; auto. }
  apply FA. intros b Hb. apply IN in Hb. destruct Hb as (x & Hx & <-). apply negb_true_iff.
  destruct (existsb (Nat.eqb (snd x)) (closes tr)) eqn:Y; [|reflexivity]. apply X in Y. destruct (T x Hx Y).
Qed.

Lemma idle_state s tr o s' : ninv s tr -> nstep s o = (s', NIdle) ->
  s' = s /\ an_over s = false /\ an_queue s = [] /\ forall x, In x (an_tasks s) -> ~ In (snd x) (closes tr).
Proof.
  intros I H. unfold nstep in H. destruct o; try discriminate. destruct (an_over s) eqn:O; [discriminate|].
  assert (K : existsb (closed_task s) (an_tasks s) = false -> forall x, In x (an_tasks s) -> ~ In (snd x) (closes tr)).
  { intros E x Hx Hc. apply (ni_closed _ _ I) in Hc. enough (existsb (closed_task s) (an_tasks s) = true) by congruence.
    apply existsb_exists. exists x. split; [exact Hx|]. apply existsb_exists. exists (snd x). split; [exact Hc|apply Nat.eqb_refl]. }
  destruct peer; try discriminate; destruct (an_queue s) as [|[a b] q] eqn:EQ; try discriminate; destruct (an_gone s); try discriminate;
    destruct (nth_error (an_tasks s) j) as [[a b]|]; try (destruct (closed_task s (a, b)); [discriminate|]);
    destruct (existsb (closed_task s) (an_tasks s)) eqn:X; try discriminate; injection H as <-; auto.
Qed.

Lemma idle_balance ops s tr o s' p : nrun ann_new ops = (s, tr) -> nstep s o = (s', NIdle) ->
  count true (about p (sent tr)) = count false (about p (sent tr)) + length (open_at p tr).
Proof.
  intros H E. pose proof (ninv_run _ _ _ H) as I. destruct (idle_state _ _ _ _ I E) as (_ & O & Q & T).
  destruct (ni_parts _ _ I O) as (ended & P & C & T1 & T2). rewrite (open_count p tr _ _ _ P Q C T), T1, T2. lia.
Qed.

Lemma finish_clears ops s tr o s' l p : nrun ann_new ops = (s, tr) -> nstep s o = (s', NFinished l) ->
  view p (sent tr ++ l) = false.
Proof.
  intros H E. pose proof (ninv_run _ _ _ H) as I. unfold nstep in E. destruct o; try discriminate.
  destruct (an_over s) eqn:O; [discriminate|].
  assert (K : l = map Ended (shuffle ks (an_active s))).
  { destruct peer; try discriminate; destruct (an_queue s) as [|[a b] q]; try discriminate; destruct (an_gone s);
      try (injection E as <- <-; reflexivity);
      destruct (nth_error (an_tasks s) j) as [[a b]|]; try (destruct (closed_task s (a, b)); [discriminate|]);
      destruct (existsb (closed_task s) (an_tasks s)); discriminate. }
  subst l. unfold view. rewrite about_app.
  pose proof (shuffle_perm ks (an_active s)) as PS.
  rewrite about_ended_map by (eapply Permutation_NoDup; [symmetry; exact PS|exact (ni_nodup _ _ I)]).
  destruct (existsb (str_eqb p) (shuffle ks (an_active s))) eqn:X; [apply last_last|].
  rewrite app_nil_r. change (view p (sent tr) = false). destruct (view p (sent tr)) eqn:V; [|reflexivity].
  apply (ni_active _ _ I O) in V. apply (Permutation_in _ (Permutation_sym PS)) in V. apply existsb_str in V. congruence.
Qed.

(** Runs in which no path has two announcements outstanding. *)
Lemma polite_prefix tr e : polite (tr ++ [e]) -> polite tr.
Proof. intros H t1 p b x t2 E. apply (H t1 p b x (t2 ++ [e])). rewrite E, <- app_assoc. reflexivity. Qed.

Lemma alternates_snoc x : forall l n, alternates n (l ++ [x]) <-> alternates n l /\ x = (if Nat.even (length l) then n else negb n).
Proof.
  induction l as [|a l IH]; intros n; cbn [alternates app].
  - cbn. intuition.
  - rewrite IH. cbn [length]. rewrite Nat.even_succ, <- Nat.negb_even.
    destruct (Nat.even (length l)); cbn; rewrite ?negb_involutive; tauto.
Qed.

Lemma count_length l : count true l + count false l = length l.
Proof. induction l as [|[] l IH]; cbn; lia. Qed.

Lemma polite_one ops : forall s tr, nrun ann_new ops = (s, tr) -> polite tr -> an_over s = false ->
  forall p, length (at_path p (an_queue s)) + length (at_path p (an_tasks s)) <= 1.
Proof.
  induction ops as [|o ops IH] using rev_ind; intros s tr H PO O p.
  - injection H as <- <-. unfold at_path. cbn. lia.
  - rewrite nrun_snoc in H. destruct (nrun ann_new ops) as [s1 t1] eqn:R.
    destruct (nstep s1 o) as [s2 x] eqn:E. injection H as <- <-.
    specialize (IH _ _ eq_refl (polite_prefix _ _ PO)). pose proof (ninv_run _ _ _ R) as I.
    assert (O1 : an_over s1 = false).
    { destruct (an_over s1) eqn:X; [|reflexivity]. unfold nstep in E. destruct o; rewrite ?X in E; injection E as <- <-; cbn in O; congruence. }
    specialize (IH O1). unfold nstep in E. destruct o as [q b|b| |peer j ks].
    + injection E as <- <-. cbn. rewrite at_path_app, app_length.
      specialize (PO t1 q b NUnit [] eq_refl). destruct (ni_parts _ _ I O1) as (ended & P & C & T1 & T2).
      specialize (IH p). rewrite at_path_one. destruct (str_eqb_spec q p) as [->|N]; cbn; [|lia].
      rewrite T2, (Permutation_length (at_path_perm p _ _ P)), !at_path_app, !app_length in PO. lia.
    + injection E as <- <-. cbn. apply IH.
    + injection E as <- <-. cbn. apply IH.
    + rewrite O1 in E. specialize (IH p).
      destruct peer; try (injection E as <- <-; cbn in O; discriminate);
      (destruct (an_queue s1) as [|[a b] q] eqn:EQ;
       [destruct (an_gone s1); [injection E as <- <-; cbn in O; discriminate|];
        destruct (nth_error (an_tasks s1) j) as [[a b]|] eqn:EJ;
        [destruct (closed_task s1 (a, b))|]; injection E as <- <-; rewrite ?EQ; cbn [an_queue an_tasks]; try exact IH;
        rewrite (Permutation_length (at_path_perm p _ _ (remove_nth_perm _ _ _ EJ))) in IH;
        change ((a, b) :: remove_nth j (an_tasks s1)) with ([(a, b)] ++ remove_nth j (an_tasks s1)) in IH;
        rewrite at_path_app, app_length in IH; cbn; cbn in IH; lia
       |injection E as <- <-; cbn [an_queue an_tasks]; rewrite at_path_app, app_length;
        change ((a, b) :: q) with ([(a, b)] ++ q) in IH; rewrite at_path_app, app_length in IH; lia]).
Qed.

Lemma alternates_counts l : alternates true l ->
  count true l = count false l + (if Nat.even (length l) then 0 else 1).
Proof.
  induction l as [|x l IH] using rev_ind; [reflexivity|]. rewrite alternates_snoc. intros (A & X).
  specialize (IH A). rewrite !count_app, app_length, Nat.add_1_r, Nat.even_succ, <- Nat.negb_even. subst x.
  destruct (Nat.even (length l)); cbn; lia.
Qed.

Lemma alternates_add l x : alternates true l -> (x = true -> count true l = count false l) ->
  (x = false -> count true l = S (count false l)) -> alternates true (l ++ [x]).
Proof.
  intros A H1 H2. rewrite alternates_snoc. split; [exact A|]. apply alternates_counts in A.
  destruct x, (Nat.even (length l)); try reflexivity; [specialize (H1 eq_refl)|specialize (H2 eq_refl)]; lia.
Qed.

(** What a turn can do. *)
Lemma turn_cases s peer j ks s' x : an_over s = false -> nstep s (NTurn peer j ks) = (s', x) ->
  (x = NStopped \/ x = NIdle \/ x = NBad) \/
  (exists p b q, an_queue s = (p, b) :: q /\ x = NSent [Active p]) \/
  (an_queue s = [] /\ x = NFinished (map Ended (shuffle ks (an_active s)))) \/
  (exists p b, an_queue s = [] /\ nth_error (an_tasks s) j = Some (p, b) /\ x = NSent [Ended p]).
Proof.
  intros O E. unfold nstep in E. rewrite O in E.
  destruct peer; try (injection E as <- <-; auto);
  (destruct (an_queue s) as [|[a b] q] eqn:EQ;
   [destruct (an_gone s); [injection E as <- <-; auto|];
    destruct (nth_error (an_tasks s) j) as [[a b]|] eqn:EJ;
    [destruct (closed_task s (a, b)); [injection E as <- <-; right; right; right; exists a, b; auto|]|];
    destruct (existsb (closed_task s) (an_tasks s)); injection E as <- <-; auto
   |injection E as <- <-; right; left; exists a, b, q; auto]).
Qed.

Lemma polite_alternates ops : forall s tr, nrun ann_new ops = (s, tr) -> polite tr ->
  forall p, alternates true (about p (sent tr)).
Proof.
  induction ops as [|o ops IH] using rev_ind; intros s tr H PO p.
  - injection H as <- <-. exact Logic.I.
  - rewrite nrun_snoc in H. destruct (nrun ann_new ops) as [s1 t1] eqn:R.
    destruct (nstep s1 o) as [s2 x] eqn:E. injection H as <- <-.
    pose proof (polite_prefix _ _ PO) as PO1. specialize (IH _ _ eq_refl PO1 p). pose proof (ninv_run _ _ _ R) as I.
    rewrite sent_snoc. destruct o as [q b|b| |peer j ks]; try (cbn in E; injection E as <- <-; cbn; rewrite app_nil_r; exact IH).
    destruct (an_over s1) eqn:O.
    { unfold nstep in E. rewrite O in E. injection E as <- <-. cbn. rewrite app_nil_r. exact IH. }
    pose proof (polite_one _ _ _ R PO1 O p) as ONE. destruct (ni_parts _ _ I O) as (ended & P & C & T1 & T2).
    specialize (T1 p). specialize (T2 p).
    destruct (turn_cases _ _ _ _ _ _ O E) as [X|[(a & b & q & EQ & ->)|[(EQ & ->)|(a & b & EQ & EJ & ->)]]].
    + replace (sent_of _) with (@nil announce); [rewrite app_nil_r; exact IH|]. destruct X as [->|[->| ->]]; reflexivity.
    + rewrite about_app. cbn. destruct (str_eqb_spec a p) as [->|N]; cbn; rewrite ?app_nil_r; [|exact IH].
      apply alternates_add; [exact IH| |discriminate]. intros _.
      rewrite EQ in ONE. change ((p, b) :: q) with ([(p, b)] ++ q) in ONE. rewrite at_path_app, at_path_one, str_eqb_refl in ONE.
      cbn in ONE. lia.
    + rewrite about_app. cbn [sent_of snd].
      pose proof (shuffle_perm ks (an_active s1)) as PS.
      rewrite about_ended_map by (eapply Permutation_NoDup; [symmetry; exact PS|exact (ni_nodup _ _ I)]).
      destruct (existsb (str_eqb p) (shuffle ks (an_active s1))) eqn:X; [|rewrite app_nil_r; exact IH].
      apply alternates_add; [exact IH|discriminate|]. intros _.
      apply existsb_str in X. apply (Permutation_in _ PS) in X. apply (ni_held _ _ I) in X.
      destruct (at_path p (an_tasks s1)) as [|t ts] eqn:ET; [contradiction|]. cbn in ONE, T1. lia.
    + rewrite about_app. cbn. destruct (str_eqb_spec a p) as [->|N]; cbn; rewrite ?app_nil_r; [|exact IH].
      apply alternates_add; [exact IH|discriminate|]. intros _.
      rewrite (Permutation_length (at_path_perm p _ _ (remove_nth_perm _ _ _ EJ))) in ONE, T1.
      change ((p, b) :: remove_nth j (an_tasks s1)) with ([(p, b)] ++ remove_nth j (an_tasks s1)) in ONE, T1.
      rewrite at_path_app, at_path_one, str_eqb_refl in ONE, T1. cbn in ONE, T1. lia.
Qed.

Lemma alternates_last l : alternates true l -> last l false = true <-> count true l = S (count false l).
Proof.
  destruct l as [|x l _] using rev_ind; [cbn; intuition discriminate|]. intros A. pose proof (alternates_counts _ A) as C.
  rewrite last_last. rewrite alternates_snoc in A. destruct A as (_ & X). rewrite app_length, Nat.add_1_r, Nat.even_succ, <- Nat.negb_even in C.
  destruct (Nat.even (length l)), x; cbn in *; try discriminate; split; intros; lia || auto.
Qed.

Lemma polite_view ops s tr o s' p : nrun ann_new ops = (s, tr) -> polite tr -> nstep s o = (s', NIdle) ->
  view p (sent tr) = true <-> open_at p tr <> [].
Proof.
  intros H PO E. pose proof (idle_balance _ _ _ _ _ p H E) as B. pose proof (polite_alternates _ _ _ H PO p) as A.
  unfold view. rewrite (alternates_last _ A). pose proof (alternates_counts _ A).
  destruct (open_at p tr); cbn in B.
  - split; [lia|congruence].
  - split; [discriminate|]. intros _. destruct (Nat.even _); lia.
Qed.
