(** Discovery of the relays of a cluster. *)
From Coq Require Import NArith Arith List Lia Bool.
From Coq Require Import Init.Byte Strings.Byte.
From Verif.Model Require Import Base Map FrameSys OriginSys Discovery.
From Verif.Spec Require Import DiscoverySpec.
From Verif.Proofs Require Import MapP TableP OriginP.
Import ListNotations.

Lemma drun_app c s a b : drun c s (a ++ b) =
  (fst (drun c (fst (drun c s a)) b), snd (drun c s a) ++ snd (drun c (fst (drun c s a)) b)).
Proof.
  revert s. induction a as [|o a IH]; intro s; cbn [app drun fst snd].
  - apply surjective_pairing.
  - destruct (dstep c s o) as [s1 x]. rewrite IH. destruct (drun c s1 a) as [s2 tr]. reflexivity.
Qed.
Lemma drun_snoc c s ops o : drun c s (ops ++ [o]) =
  (fst (dstep c (fst (drun c s ops)) o), snd (drun c s ops) ++ [(o, snd (dstep c (fst (drun c s ops)) o))]).
Proof. rewrite drun_app. cbn [drun]. destruct (dstep c (fst (drun c s ops)) o). reflexivity. Qed.

(** ** Small lemmas *)
Definition ids (l : list task) : list (bytes * nat) := map (fun t => (tk_node t, tk_origin t)) l.
Lemma set_nth_map {A B} (f : A -> B) i x l y : nth_error l i = Some y -> f x = f y -> map f (set_nth i x l) = map f l.
Proof.
  revert i. induction l as [|z l IH]; intros [|i]; cbn; try discriminate.
  - intros [= ->] ->. reflexivity.
  - intros H E. rewrite IH; auto.
Qed.
Lemma nth_set {A} i (x : A) l y k u : nth_error l i = Some y -> nth_error (set_nth i x l) k = Some u ->
  k = i /\ u = x \/ k <> i /\ nth_error l k = Some u.
Proof.
  intros H E. destruct (Nat.eq_dec k i) as [->|N].
  - left. split; [reflexivity|]. rewrite nth_error_set_eq in E; [congruence|]. apply nth_error_Some. congruence.
  - right. split; [exact N|]. rewrite nth_error_set_ne in E; auto.
Qed.
Lemma nth_set_same {A} i (x : A) l y : nth_error l i = Some y -> nth_error (set_nth i x l) i = Some x.
Proof. intro H. apply nth_error_set_eq. apply nth_error_Some. congruence. Qed.

Definition told_in (c : config) (e : dop * list deffect) (h : bytes) (b : nat) : Prop := e = (DAnnounce (place c h) b, []).
Lemma told_snoc c tr e h b : told c (tr ++ [e]) h b <-> told c tr h b \/ told_in c e h b.
Proof. unfold told, told_in. rewrite in_app_iff. cbn. intuition. Qed.
Lemma retracted_snoc tr e b : retracted (tr ++ [e]) b <-> retracted tr b \/ fst e = DGone b.
Proof.
  unfold retracted. split.
  - intros [x H]. apply in_app_iff in H. destruct H as [H|[->|[]]]; [left; eauto|right; reflexivity].
  - intros [[x H]|H]; [exists x; apply in_app_iff; auto|]. destruct e as [o x]. cbn in H. subst. exists x. apply in_app_iff. cbn. auto.
Qed.
Definition told_h (c : config) (h : bytes) (e : dop * list deffect) : bool :=
  match e with (DAnnounce p _, []) => if list_eq_dec Byte.byte_eq_dec p (place c h) then true else false | _ => false end.
Lemma times_snoc c tr e h : times_told c (tr ++ [e]) h = times_told c tr h + (if told_h c h e then 1 else 0).
Proof. unfold times_told. rewrite filter_app, app_length. cbn. unfold told_h. destruct e as [[] []]; try reflexivity. destruct (list_eq_dec _ path _); reflexivity. Qed.
Lemma deffects_snoc tr e : deffects (tr ++ [e]) = deffects tr ++ snd e.
Proof. unfold deffects. rewrite flat_map_app. cbn. rewrite app_nil_r. reflexivity. Qed.
Definition opened (x : list deffect) : list (nat * bytes) := flat_map (fun y => match y with EOpen j h => [(j, h)] | _ => [] end) x.
Lemma links_snoc tr o x : open_links (tr ++ [(o, x)]) =
  match o with DLost j => filter (fun k => negb (Nat.eqb j (fst k))) (open_links tr) | _ => open_links tr ++ opened x end.
Proof. unfold open_links at 1. rewrite fold_left_app. cbn. destruct o; reflexivity. Qed.
Lemma place_inj c a b : place c a = place c b -> a = b.
Proof. unfold place. intro H. apply app_inv_head in H. cbn in H. congruence. Qed.

Definition is_host (h : bytes) (e : bytes * nat) : bool := str_eqb h (fst e).
Definition count_host (h : bytes) (l : list (bytes * nat)) : nat := length (filter (is_host h) l).
Lemma count_app h l m : count_host h (l ++ m) = count_host h l + count_host h m.
Proof. unfold count_host. rewrite filter_app, app_length. reflexivity. Qed.
Lemma count_one h n b : count_host h [(n, b)] = if str_eqb h n then 1 else 0.
Proof. unfold count_host. cbn. unfold is_host. cbn. destruct (str_eqb h n); reflexivity. Qed.

Definition owns (f : nat -> nat) (tasks : list task) (links : list (bytes * bool)) : Prop :=
  (forall j h, nth_error links j = Some (h, true) ->
     exists t, nth_error tasks (f j) = Some t /\ tk_node t = h /\ (tk_stage t = Live j \/ tk_stage t = Done)) /\
  (forall j k h h', nth_error links j = Some (h, true) -> nth_error links k = Some (h', true) -> f j = f k -> j = k).

Record dinv (c : config) (s : disco) (tr : devents) : Prop := {
  di_gone : forall b, withdrawn s b = true <-> retracted tr b;
  di_links : forall j h, In (j, h) (open_links tr) <-> nth_error (ds_links s) j = Some (h, true);
  di_nodup : NoDup (open_links tr);
  di_tasks : forall n b, In (n, b) (ids (ds_tasks s)) -> told c tr n b /\ same_host n (cf_advertise c) = false;
  di_queue : forall n b, In (n, b) (ds_queue s) -> told c tr n b;
  di_found : forall n b, told c tr n b -> same_host n (cf_advertise c) = true \/ In (n, b) (ds_queue s) \/ In (n, b) (ids (ds_tasks s));
  di_phase : match ds_phase s with Watching => True | _ => ds_queue s = [] end;
  di_times : forall h, count_host h (ids (ds_tasks s)) + count_host h (ds_queue s) <= times_told c tr h;
  di_live : forall i t j, nth_error (ds_tasks s) i = Some t -> tk_stage t = Live j -> nth_error (ds_links s) j = Some (tk_node t, true);
  di_done : forall i t, nth_error (ds_tasks s) i = Some t -> tk_stage t = Done -> withdrawn s (tk_origin t) = true;
  di_dial : forall i t, nth_error (ds_tasks s) i = Some t ->
    match tk_stage t with Ready | Done => True | _ => In (EDial i (tk_node t)) (deffects tr) end;
  di_owner : exists f, owns f (ds_tasks s) (ds_links s) }.

(** A step that announces nothing, loses nothing and withdraws nothing. *)
Definition quiet_op (o : dop) : Prop := match o with DAnnounce _ _ | DLost _ | DGone _ => False | _ => True end.
Lemma told_quiet c tr o x h b : quiet_op o -> (told c (tr ++ [(o, x)]) h b <-> told c tr h b).
Proof. intro Q. rewrite told_snoc. unfold told_in. destruct o; try destruct Q; intuition discriminate. Qed.
Lemma retracted_quiet tr o x b : quiet_op o -> (retracted (tr ++ [(o, x)]) b <-> retracted tr b).
Proof. intro Q. rewrite retracted_snoc. destruct o; try destruct Q; cbn; intuition discriminate. Qed.
Lemma times_quiet c tr o x h : quiet_op o -> times_told c (tr ++ [(o, x)]) h = times_told c tr h.
Proof. intro Q. rewrite times_snoc. destruct o; try destruct Q; cbn; lia. Qed.
Lemma links_quiet tr o x : quiet_op o -> opened x = [] -> open_links (tr ++ [(o, x)]) = open_links tr.
Proof. intros Q E. rewrite links_snoc, E, app_nil_r. destruct o; try destruct Q; reflexivity. Qed.
Lemma dial_more tr e i t : match tk_stage t with Ready | Done => True | _ => In (EDial i (tk_node t)) (deffects tr) end ->
  match tk_stage t with Ready | Done => True | _ => In (EDial i (tk_node t)) (deffects (tr ++ [e])) end.
Proof. rewrite deffects_snoc. destruct (tk_stage t); auto; intro H; apply in_app_iff; auto. Qed.

(** ** Steps *)
(** The state stays, up to the phase. *)
Lemma stay_dinv c s tr o x p over : dinv c s tr -> quiet_op o -> opened x = [] ->
  match p with Watching => True | _ => ds_queue s = [] end ->
  dinv c (Disco p (ds_queue s) over (ds_tasks s) (ds_gone s) (ds_links s)) (tr ++ [(o, x)]).
Proof.
  intros I Q X P. constructor; cbn [ds_phase ds_queue ds_over ds_tasks ds_gone ds_links].
  - intro b. rewrite retracted_quiet by exact Q. apply (di_gone _ _ _ I).
  - intros j h. rewrite links_quiet by assumption. apply (di_links _ _ _ I).
  - rewrite links_quiet by assumption. apply (di_nodup _ _ _ I).
  - intros n b H. rewrite told_quiet by exact Q. exact (di_tasks _ _ _ I n b H).
  - intros n b H. rewrite told_quiet by exact Q. exact (di_queue _ _ _ I n b H).
  - intros n b H. rewrite told_quiet in H by exact Q. exact (di_found _ _ _ I n b H).
  - exact P.
  - intro h. rewrite times_quiet by exact Q. apply (di_times _ _ _ I).
  - apply (di_live _ _ _ I).
  - apply (di_done _ _ _ I).
  - intros i t H. apply dial_more, (di_dial _ _ _ I i t H).
  - apply (di_owner _ _ _ I).
Qed.
Lemma disco_eta s : Disco (ds_phase s) (ds_queue s) (ds_over s) (ds_tasks s) (ds_gone s) (ds_links s) = s.
Proof. destruct s; reflexivity. Qed.
Lemma same_dinv c s tr o x : dinv c s tr -> quiet_op o -> opened x = [] -> dinv c s (tr ++ [(o, x)]).
Proof. intros I Q X. rewrite <- (disco_eta s). apply stay_dinv; auto. apply (di_phase _ _ _ I). Qed.

(** A task changes its stage, not to [Live]. *)
Lemma stage_dinv c s tr o x i t g : dinv c s tr -> quiet_op o -> opened x = [] ->
  nth_error (ds_tasks s) i = Some t -> (forall j, g <> Live j) ->
  (g = Done -> withdrawn s (tk_origin t) = true) ->
  match g with Ready | Done => True | _ => In (EDial i (tk_node t)) (deffects tr ++ x) end ->
  (forall j, tk_stage t = Live j -> g = Done) -> tk_stage t <> Done ->
  dinv c (with_task s i (Task (tk_node t) (tk_origin t) g)) (tr ++ [(o, x)]).
Proof.
  intros I Q X N L D E G ND.
  assert (Ids : ids (set_nth i (Task (tk_node t) (tk_origin t) g) (ds_tasks s)) = ids (ds_tasks s)).
  { unfold ids. apply set_nth_map with (y := t); [exact N|reflexivity]. }
  constructor; cbn [with_task ds_phase ds_queue ds_over ds_tasks ds_gone ds_links]; rewrite ?Ids.
  - intro b. rewrite retracted_quiet by exact Q. apply (di_gone _ _ _ I).
  - intros j h. rewrite links_quiet by assumption. apply (di_links _ _ _ I).
  - rewrite links_quiet by assumption. apply (di_nodup _ _ _ I).
  - intros n b H. rewrite told_quiet by exact Q. exact (di_tasks _ _ _ I n b H).
  - intros n b H. rewrite told_quiet by exact Q. exact (di_queue _ _ _ I n b H).
  - intros n b H. rewrite told_quiet in H by exact Q. exact (di_found _ _ _ I n b H).
  - apply (di_phase _ _ _ I).
  - intro h. rewrite times_quiet by exact Q. apply (di_times _ _ _ I).
  - intros k u j H S. destruct (nth_set _ _ _ _ _ _ N H) as [[-> ->]|[Nk Hk]]; [cbn in S; destruct (L j S)|].
    exact (di_live _ _ _ I k u j Hk S).
  - intros k u H S. destruct (nth_set _ _ _ _ _ _ N H) as [[-> ->]|[Nk Hk]]; [cbn in *; exact (D S)|].
    exact (di_done _ _ _ I k u Hk S).
  - intros k u H. destruct (nth_set _ _ _ _ _ _ N H) as [[-> ->]|[Nk Hk]].
    + cbn [tk_stage tk_node]. rewrite deffects_snoc. exact E.
    + apply dial_more, (di_dial _ _ _ I k u Hk).
  - destruct (di_owner _ _ _ I) as [f [F1 F2]]. exists f. split; [|exact F2].
    intros j h H. destruct (F1 j h H) as (u & U1 & U2 & U3). destruct (Nat.eq_dec (f j) i) as [Ei|Ni].
    + rewrite Ei in *. rewrite N in U1. injection U1 as <-. eexists. rewrite (nth_set_same _ _ _ _ N). split; [reflexivity|].
      split; [exact U2|]. right. cbn. destruct U3 as [U3|U3]; [exact (G _ U3)|contradiction].
    + exists u. rewrite nth_error_set_ne by auto. auto.
Qed.

Lemma turn_dinv c s tr o i t : dinv c s tr -> quiet_op o -> nth_error (ds_tasks s) i = Some t ->
  (tk_stage t = Ready \/ tk_stage t = Sleeping) -> dinv c (fst (turn s i t)) (tr ++ [(o, snd (turn s i t))]).
Proof.
  intros I Q N S. unfold turn. destruct (withdrawn s (tk_origin t)) eqn:W; cbn [fst snd].
  - apply stage_dinv; auto; try discriminate; destruct S as [S|S]; rewrite S; discriminate.
  - apply stage_dinv; auto; try discriminate.
    + apply in_app_iff. right. cbn. auto.
    + intros j H. destruct S; congruence.
    + destruct S as [S|S]; rewrite S; discriminate.
Qed.

Lemma count_ids_snoc h l t : count_host h (ids (l ++ [t])) = count_host h (ids l) + (if str_eqb h (tk_node t) then 1 else 0).
Proof. unfold ids. rewrite map_app, count_app. cbn [map]. rewrite count_one. reflexivity. Qed.

Lemma step_dinv c s tr o : dinv c s tr -> dinv c (fst (dstep c s o)) (tr ++ [(o, snd (dstep c s o))]).
Proof.
  intro I. destruct o as [|ok|p b| | |i|i ok|j|i|b]; cbn [dstep].
  - (* start *)
    destruct (ds_phase s) eqn:P; try (apply same_dinv; [exact I|exact Logic.I|reflexivity]).
    pose proof (di_phase _ _ _ I) as Qp. rewrite P in Qp.
    destruct (cf_connect c) as [root|]; [destruct (same_host root (cf_advertise c))|]; cbn [fst snd];
      apply stay_dinv; try exact I; try exact Logic.I; try reflexivity; exact Qp.
  - (* the root *)
    destruct (ds_phase s) eqn:P; try (apply same_dinv; [exact I|exact Logic.I|reflexivity]).
    pose proof (di_phase _ _ _ I) as Qp. rewrite P in Qp.
    destruct ok; cbn [fst snd]; apply stay_dinv; try exact I; try exact Logic.I; try reflexivity; [|exact Qp].
    destruct (cf_advertise c); reflexivity.
  - (* announced *)
    assert (Bad : forall x, x <> [] -> opened x = [] -> dinv c s (tr ++ [(DAnnounce p b, x)])).
    { intros x Nx X. constructor.
      - intro d. rewrite retracted_snoc. cbn. rewrite (di_gone _ _ _ I). intuition discriminate.
      - intros j h. rewrite links_snoc, X, app_nil_r. apply (di_links _ _ _ I).
      - rewrite links_snoc, X, app_nil_r. apply (di_nodup _ _ _ I).
      - intros n d H. rewrite told_snoc. destruct (di_tasks _ _ _ I n d H). auto.
      - intros n d H. rewrite told_snoc. left. exact (di_queue _ _ _ I n d H).
      - intros n d H. rewrite told_snoc in H. destruct H as [H|H]; [exact (di_found _ _ _ I n d H)|].
        unfold told_in in H. injection H as _ _ H. contradiction.
      - apply (di_phase _ _ _ I).
      - intro h. rewrite times_snoc. pose proof (di_times _ _ _ I h). lia.
      - apply (di_live _ _ _ I).
      - apply (di_done _ _ _ I).
      - intros i t H. apply dial_more, (di_dial _ _ _ I i t H).
      - apply (di_owner _ _ _ I). }
    destruct (ds_phase s) eqn:P; try (apply Bad; [discriminate|reflexivity]).
    destruct (ds_over s); [apply Bad; [discriminate|reflexivity]|].
    assert (Pl : forall n, p = (prefix_of c ++ ["/"%byte]) ++ n <-> p = place c n) by (intro n; unfold place; rewrite <- app_assoc; reflexivity).
    destruct (strip_prefix (prefix_of c ++ ["/"%byte]) p) as [n|] eqn:S; cbn [fst snd].
    + apply strip_prefix_spec, Pl in S. subst p. constructor; cbn [ds_phase ds_queue ds_over ds_tasks ds_gone ds_links].
      * intro d. rewrite retracted_snoc. cbn. unfold withdrawn. cbn [ds_gone]. rewrite (di_gone _ _ _ I d : existsb _ _ = true <-> _). intuition discriminate.
      * intros j h. rewrite links_snoc. cbn. rewrite app_nil_r. apply (di_links _ _ _ I).
      * rewrite links_snoc. cbn. rewrite app_nil_r. apply (di_nodup _ _ _ I).
      * intros m d H. rewrite told_snoc. destruct (di_tasks _ _ _ I m d H). auto.
      * intros m d H. rewrite told_snoc. apply in_app_iff in H. destruct H as [H|[[= <- <-]|[]]]; [left; exact (di_queue _ _ _ I m d H)|right; reflexivity].
      * intros m d H. rewrite told_snoc in H. rewrite in_app_iff. destruct H as [H|H].
        -- destruct (di_found _ _ _ I m d H) as [G|[G|G]]; auto.
        -- unfold told_in in H. injection H as H <-. apply place_inj in H. subst m. right. left. right. left. reflexivity.
      * exact Logic.I.
      * intro h. rewrite times_snoc, count_app, count_one. cbn [told_h]. pose proof (di_times _ _ _ I h) as Th.
        destruct (str_eqb_spec h n) as [->|]; [|lia]. destruct (list_eq_dec _ _ _) as [_|C]; [lia|destruct C; reflexivity].
      * apply (di_live _ _ _ I).
      * apply (di_done _ _ _ I).
      * intros i t H. apply dial_more, (di_dial _ _ _ I i t H).
      * apply (di_owner _ _ _ I).
    + assert (Nt : forall m, p <> place c m).
      { intros m E. apply Pl, strip_prefix_spec in E. congruence. }
      constructor.
      * intro d. rewrite retracted_snoc. cbn. rewrite (di_gone _ _ _ I). intuition discriminate.
      * intros j h. rewrite links_snoc. cbn. rewrite app_nil_r. apply (di_links _ _ _ I).
      * rewrite links_snoc. cbn. rewrite app_nil_r. apply (di_nodup _ _ _ I).
      * intros n d H. rewrite told_snoc. destruct (di_tasks _ _ _ I n d H). auto.
      * intros n d H. rewrite told_snoc. left. exact (di_queue _ _ _ I n d H).
      * intros n d H. rewrite told_snoc in H. destruct H as [H|H]; [exact (di_found _ _ _ I n d H)|].
        unfold told_in in H. injection H as H _. destruct (Nt _ H).
      * apply (di_phase _ _ _ I).
      * intro h. rewrite times_snoc. pose proof (di_times _ _ _ I h). lia.
      * apply (di_live _ _ _ I).
      * apply (di_done _ _ _ I).
      * intros i t H. apply dial_more, (di_dial _ _ _ I i t H).
      * apply (di_owner _ _ _ I).
  - (* the root is lost *)
    destruct (ds_phase s) eqn:P; try (apply same_dinv; [exact I|exact Logic.I|reflexivity]).
    cbn [fst snd]. apply stay_dinv; try exact I; try exact Logic.I; reflexivity.
  - (* next *)
    destruct (ds_phase s) eqn:P; try (apply same_dinv; [exact I|exact Logic.I|reflexivity]).
    destruct (ds_queue s) as [|[n b] q] eqn:Qe.
    + destruct (ds_over s); cbn [fst snd]; [|apply same_dinv; [exact I|exact Logic.I|reflexivity]].
      rewrite <- Qe. apply stay_dinv; try exact I; try exact Logic.I; [reflexivity|exact Qe].
    + destruct (same_host n (cf_advertise c)) eqn:Sh; cbn [fst snd].
      * constructor; cbn [ds_phase ds_queue ds_over ds_tasks ds_gone ds_links].
        -- intro d. rewrite retracted_quiet by exact Logic.I. apply (di_gone _ _ _ I).
        -- intros j h. rewrite links_quiet by (exact Logic.I || reflexivity). apply (di_links _ _ _ I).
        -- rewrite links_quiet by (exact Logic.I || reflexivity). apply (di_nodup _ _ _ I).
        -- intros m d H. rewrite told_quiet by exact Logic.I. exact (di_tasks _ _ _ I m d H).
        -- intros m d H. rewrite told_quiet by exact Logic.I. apply (di_queue _ _ _ I). rewrite Qe. right. exact H.
        -- intros m d H. rewrite told_quiet in H by exact Logic.I. destruct (di_found _ _ _ I m d H) as [G|[G|G]]; auto.
           rewrite Qe in G. destruct G as [[= -> ->]|G]; auto.
        -- exact Logic.I.
        -- intro h. rewrite times_quiet by exact Logic.I. pose proof (di_times _ _ _ I h) as Th. rewrite Qe in Th.
           change ((n, b) :: q) with ([(n, b)] ++ q) in Th. rewrite count_app in Th. lia.
        -- apply (di_live _ _ _ I).
        -- apply (di_done _ _ _ I).
        -- intros i t H. apply dial_more, (di_dial _ _ _ I i t H).
        -- apply (di_owner _ _ _ I).
      * assert (Old : forall i t, nth_error (ds_tasks s ++ [Task n b Ready]) i = Some t -> nth_error (ds_tasks s) i = Some t \/ t = Task n b Ready).
        { intros i t H. destruct (Nat.lt_ge_cases i (length (ds_tasks s))) as [Lt|Ge].
          - rewrite nth_error_app1 in H by exact Lt. auto.
          - rewrite nth_error_app2 in H by exact Ge. apply nth_error_In in H. destruct H as [<-|[]]. auto. }
        constructor; cbn [ds_phase ds_queue ds_over ds_tasks ds_gone ds_links].
        -- intro d. rewrite retracted_quiet by exact Logic.I. apply (di_gone _ _ _ I).
        -- intros j h. rewrite links_quiet by (exact Logic.I || reflexivity). apply (di_links _ _ _ I).
        -- rewrite links_quiet by (exact Logic.I || reflexivity). apply (di_nodup _ _ _ I).
        -- intros m d H. rewrite told_quiet by exact Logic.I. unfold ids in H. rewrite map_app in H. apply in_app_iff in H. destruct H as [H|[[= <- <-]|[]]].
           ++ exact (di_tasks _ _ _ I m d H).
           ++ split; [|exact Sh]. apply (di_queue _ _ _ I). rewrite Qe. left. reflexivity.
        -- intros m d H. rewrite told_quiet by exact Logic.I. apply (di_queue _ _ _ I). rewrite Qe. right. exact H.
        -- intros m d H. rewrite told_quiet in H by exact Logic.I. unfold ids. rewrite map_app, in_app_iff. cbn. destruct (di_found _ _ _ I m d H) as [G|[G|G]]; auto.
           rewrite Qe in G. destruct G as [[= -> ->]|G]; auto.
        -- exact Logic.I.
        -- intro h. rewrite times_quiet by exact Logic.I. rewrite count_ids_snoc. pose proof (di_times _ _ _ I h) as Th. rewrite Qe in Th.
           change ((n, b) :: q) with ([(n, b)] ++ q) in Th. rewrite count_app, count_one in Th. cbn [tk_node]. lia.
        -- intros i t j H S. destruct (Old i t H) as [H'| ->]; [exact (di_live _ _ _ I i t j H' S)|discriminate].
        -- intros i t H S. destruct (Old i t H) as [H'| ->]; [exact (di_done _ _ _ I i t H' S)|discriminate].
        -- intros i t H. destruct (Old i t H) as [H'| ->]; [apply dial_more, (di_dial _ _ _ I i t H')|exact Logic.I].
        -- destruct (di_owner _ _ _ I) as [f [F1 F2]]. exists f. split; [|exact F2]. intros j h H. destruct (F1 j h H) as (t & T1 & T2).
           exists t. split; [|exact T2]. rewrite nth_error_app1; [exact T1|]. apply nth_error_Some. congruence.
  - (* a poll *)
    destruct (nth_error (ds_tasks s) i) as [t|] eqn:N; [|apply same_dinv; [exact I|exact Logic.I|reflexivity]].
    destruct (tk_stage t) as [| |j| |] eqn:S; try (apply same_dinv; [exact I|exact Logic.I|reflexivity]).
    + apply turn_dinv; auto. exact Logic.I.
    + destruct (withdrawn s (tk_origin t)) eqn:W; [|apply same_dinv; [exact I|exact Logic.I|reflexivity]]. cbn [fst snd].
      apply stage_dinv; auto; try discriminate; try exact Logic.I. congruence.
    + destruct (withdrawn s (tk_origin t)) eqn:W; [|apply same_dinv; [exact I|exact Logic.I|reflexivity]]. cbn [fst snd].
      apply stage_dinv; auto; try discriminate; try exact Logic.I. congruence.
  - (* a result *)
    destruct (nth_error (ds_tasks s) i) as [t|] eqn:N; [|apply same_dinv; [exact I|exact Logic.I|reflexivity]].
    destruct (tk_stage t) as [| |j| |] eqn:S; try (apply same_dinv; [exact I|exact Logic.I|reflexivity]).
    destruct (withdrawn s (tk_origin t)) eqn:W; cbn [fst snd].
    { apply stage_dinv; auto; try discriminate; try exact Logic.I. congruence. }
    destruct ok; cbn [fst snd].
    2:{ apply stage_dinv; auto; try discriminate; try exact Logic.I.
        - apply in_app_iff. left. pose proof (di_dial _ _ _ I i t N) as Dt. rewrite S in Dt. exact Dt.
        - intros j H. congruence.
        - congruence. }
    set (j := length (ds_links s)).
    assert (Ids : ids (set_nth i (Task (tk_node t) (tk_origin t) (Live j)) (ds_tasks s)) = ids (ds_tasks s)).
    { unfold ids. apply set_nth_map with (y := t); [exact N|reflexivity]. }
    assert (Lk : forall k h, nth_error (ds_links s ++ [(tk_node t, true)]) k = Some (h, true) <-> nth_error (ds_links s) k = Some (h, true) \/ k = j /\ h = tk_node t).
    { intros k h. split.
      - intro H. destruct (Nat.lt_ge_cases k (length (ds_links s))) as [Lt|Ge].
        + rewrite nth_error_app1 in H by exact Lt. auto.
        + rewrite nth_error_app2 in H by exact Ge. destruct (k - length (ds_links s)) as [|d] eqn:Dk.
          * right. cbn in H. injection H as <-. split; [unfold j; lia|reflexivity].
          * cbn in H. destruct d; discriminate.
      - intros [H|[-> ->]].
        + rewrite nth_error_app1; [exact H|]. apply nth_error_Some. congruence.
        + unfold j. rewrite nth_error_app2, Nat.sub_diag by lia. reflexivity. }
    assert (Nj : forall h, nth_error (ds_links s) j <> Some (h, true)).
    { intros h H. assert (j < length (ds_links s)) by (apply nth_error_Some; congruence). unfold j in *. lia. }
    constructor; cbn [with_task ds_phase ds_queue ds_over ds_tasks ds_gone ds_links]; rewrite ?Ids.
    + intro d. rewrite retracted_quiet by exact Logic.I. apply (di_gone _ _ _ I).
    + intros k h. rewrite links_snoc. cbn [opened flat_map app]. rewrite in_app_iff, Lk, (di_links _ _ _ I). cbn. intuition congruence.
    + rewrite links_snoc. cbn [opened flat_map app]. rewrite <- (rev_involutive (open_links tr ++ _)), rev_app_distr. apply NoDup_rev. cbn.
      constructor; [|apply NoDup_rev, (di_nodup _ _ _ I)]. rewrite <- in_rev. intro H. apply (di_links _ _ _ I) in H. exact (Nj _ H).
    + intros n b H. rewrite told_quiet by exact Logic.I. exact (di_tasks _ _ _ I n b H).
    + intros n b H. rewrite told_quiet by exact Logic.I. exact (di_queue _ _ _ I n b H).
    + intros n b H. rewrite told_quiet in H by exact Logic.I. exact (di_found _ _ _ I n b H).
    + apply (di_phase _ _ _ I).
    + intro h. rewrite times_quiet by exact Logic.I. apply (di_times _ _ _ I).
    + intros k u l H Su. apply Lk. destruct (nth_set _ _ _ _ _ _ N H) as [[-> ->]|[Nk Hk]].
      * cbn in Su. injection Su as <-. auto.
      * left. exact (di_live _ _ _ I k u l Hk Su).
    + intros k u H Su. destruct (nth_set _ _ _ _ _ _ N H) as [[-> ->]|[Nk Hk]]; [discriminate|]. exact (di_done _ _ _ I k u Hk Su).
    + intros k u H. destruct (nth_set _ _ _ _ _ _ N H) as [[-> ->]|[Nk Hk]]; [|apply dial_more, (di_dial _ _ _ I k u Hk)].
      cbn [tk_stage tk_node]. rewrite deffects_snoc. apply in_app_iff. left. pose proof (di_dial _ _ _ I i t N) as Dt. rewrite S in Dt. exact Dt.
    + destruct (di_owner _ _ _ I) as [f [F1 F2]]. exists (fun k => if Nat.eqb k j then i else f k).
      assert (Ne : forall k h, nth_error (ds_links s) k = Some (h, true) -> k <> j /\ f k <> i).
      { intros k h H. split; [intros ->; exact (Nj _ H)|]. intro E. destruct (F1 k h H) as (u & U1 & _ & U3). rewrite E, N in U1. injection U1 as <-.
        destruct U3; congruence. }
      split.
      * intros k h H. apply Lk in H. destruct H as [H|[-> ->]].
        -- destruct (Ne k h H) as [N1 N2]. apply Nat.eqb_neq in N1. rewrite N1. rewrite nth_error_set_ne by auto. exact (F1 k h H).
        -- rewrite Nat.eqb_refl. eexists. rewrite (nth_set_same _ _ _ _ N). split; [reflexivity|]. cbn. auto.
      * intros k l h h' Hk Hl E. apply Lk in Hk. apply Lk in Hl. destruct Hk as [Hk|[-> ->]], Hl as [Hl|[-> ->]]; auto.
        -- destruct (Ne k h Hk) as [N1 _], (Ne l h' Hl) as [N2 _]. apply Nat.eqb_neq in N1, N2. rewrite N1, N2 in E. eauto.
        -- destruct (Ne k h Hk) as [N1 N2]. apply Nat.eqb_neq in N1. rewrite N1, Nat.eqb_refl in E. contradiction.
        -- destruct (Ne l h' Hl) as [N1 N2]. apply Nat.eqb_neq in N1. rewrite N1, Nat.eqb_refl in E. destruct N2; auto.
  - (* a loss *)
    assert (Told : forall x n d, told c (tr ++ [(DLost j, x)]) n d <-> told c tr n d) by (intros; rewrite told_snoc; unfold told_in; intuition discriminate).
    assert (Ret : forall x d, retracted (tr ++ [(DLost j, x)]) d <-> retracted tr d) by (intros; rewrite retracted_snoc; cbn; intuition discriminate).
    assert (Tm : forall x h, times_told c (tr ++ [(DLost j, x)]) h = times_told c tr h) by (intros; rewrite times_snoc; cbn; lia).
    assert (Lo : forall x k h, In (k, h) (open_links (tr ++ [(DLost j, x)])) <-> In (k, h) (open_links tr) /\ k <> j).
    { intros x k h. rewrite links_snoc, filter_In. cbn [fst]. destruct (Nat.eqb_spec j k); cbn; intuition congruence. }
    assert (Nd : forall x, NoDup (open_links (tr ++ [(DLost j, x)]))) by (intro x; rewrite links_snoc; apply NoDup_filter, (di_nodup _ _ _ I)).
    assert (Bad : (forall h, nth_error (ds_links s) j <> Some (h, true)) -> dinv c s (tr ++ [(DLost j, [EBad])])).
    { intro Nj. constructor; try apply I.
      - intro d. rewrite Ret. apply (di_gone _ _ _ I).
      - intros k h. rewrite Lo, (di_links _ _ _ I). split; [tauto|]. intro H. split; [exact H|]. intros ->. exact (Nj _ H).
      - apply Nd.
      - intros n d H. rewrite Told. exact (di_tasks _ _ _ I n d H).
      - intros n d H. rewrite Told. exact (di_queue _ _ _ I n d H).
      - intros n d H. rewrite Told in H. exact (di_found _ _ _ I n d H).
      - intro h. rewrite Tm. apply (di_times _ _ _ I).
      - intros i t H. apply dial_more, (di_dial _ _ _ I i t H). }
    destruct (nth_error (ds_links s) j) as [[h []]|] eqn:N; try (apply Bad; intros; congruence). clear Bad. cbv zeta. cbn [fst snd].
    set (f := fun t => match tk_stage t with
          | Live k => if Nat.eqb k j then Task (tk_node t) (tk_origin t) (if withdrawn s (tk_origin t) then Done else Sleeping) else t
          | _ => t end).
    assert (Id : forall t, tk_node (f t) = tk_node t /\ tk_origin (f t) = tk_origin t).
    { intro t. unfold f. destruct (tk_stage t); auto. destruct (Nat.eqb link j); auto. }
    assert (Ids : ids (map f (ds_tasks s)) = ids (ds_tasks s)).
    { unfold ids. rewrite map_map. apply map_ext. intro t. destruct (Id t) as [-> ->]. reflexivity. }
    assert (St : forall t, tk_stage (f t) = tk_stage t /\ tk_stage t <> Live j \/
                 tk_stage t = Live j /\ tk_stage (f t) = if withdrawn s (tk_origin t) then Done else Sleeping).
    { intro t. unfold f. destruct (tk_stage t) as [| |k| |] eqn:S; try (left; split; [exact S|discriminate]).
      destruct (Nat.eqb_spec k j) as [->|Nk]; [right; auto|left; split; [exact S|congruence]]. }
    assert (Nm : forall i u, nth_error (map f (ds_tasks s)) i = Some u -> exists t, nth_error (ds_tasks s) i = Some t /\ u = f t).
    { intros i u H. rewrite nth_error_map in H. destruct (nth_error (ds_tasks s) i) as [t|]; [|discriminate]. injection H as <-. eauto. }
    assert (Lk : forall k h', nth_error (set_nth j (h, false) (ds_links s)) k = Some (h', true) <-> nth_error (ds_links s) k = Some (h', true) /\ k <> j).
    { intros k h'. split.
      - intro H. destruct (nth_set _ _ _ _ _ _ N H) as [[-> E]|[Nk Hk]]; [discriminate|auto].
      - intros [H Nk]. rewrite nth_error_set_ne; auto. }
    constructor; cbn [ds_phase ds_queue ds_over ds_tasks ds_gone ds_links]; rewrite ?Ids.
    + intro d. rewrite Ret. apply (di_gone _ _ _ I).
    + intros k h'. rewrite Lo, Lk, (di_links _ _ _ I). reflexivity.
    + apply Nd.
    + intros n d H. rewrite Told. exact (di_tasks _ _ _ I n d H).
    + intros n d H. rewrite Told. exact (di_queue _ _ _ I n d H).
    + intros n d H. rewrite Told in H. exact (di_found _ _ _ I n d H).
    + apply (di_phase _ _ _ I).
    + intro h'. rewrite Tm. apply (di_times _ _ _ I).
    + intros i u k H S. destruct (Nm i u H) as (t & Nt & ->). apply Lk. destruct (Id t) as [-> _]. destruct (St t) as [[E1 E2]|[E1 E2]].
      * rewrite E1 in S. split; [exact (di_live _ _ _ I i t k Nt S)|congruence].
      * rewrite E2 in S. destruct (withdrawn s (tk_origin t)); discriminate.
    + intros i u H S. destruct (Nm i u H) as (t & Nt & ->). destruct (Id t) as [_ ->]. destruct (St t) as [[E1 E2]|[E1 E2]].
      * rewrite E1 in S. exact (di_done _ _ _ I i t Nt S).
      * rewrite E2 in S. change (withdrawn (Disco _ _ _ _ (ds_gone s) _)) with (withdrawn s). destruct (withdrawn s (tk_origin t)); [reflexivity|discriminate].
    + intros i u H. destruct (Nm i u H) as (t & Nt & ->). apply dial_more. destruct (Id t) as [-> _]. pose proof (di_dial _ _ _ I i t Nt) as Dt.
      destruct (St t) as [[E1 E2]|[E1 E2]]; [rewrite E1; exact Dt|]. rewrite E1 in Dt. rewrite E2. destruct (withdrawn s (tk_origin t)); auto.
    + destruct (di_owner _ _ _ I) as [g [F1 F2]]. exists g. split.
      * intros k h' H. apply Lk in H. destruct H as [H Nk]. destruct (F1 k h' H) as (t & T1 & T2 & T3). exists (f t).
        rewrite nth_error_map, T1. split; [reflexivity|]. destruct (Id t) as [-> _]. split; [exact T2|].
        destruct (St t) as [[E1 E2]|[E1 E2]]; [rewrite E1; exact T3|]. destruct T3; congruence.
      * intros k l h1 h2 Hk Hl E. apply Lk in Hk. apply Lk in Hl. destruct Hk as [Hk _], Hl as [Hl _]. eauto.
  - (* a wake-up *)
    destruct (nth_error (ds_tasks s) i) as [t|] eqn:N; [|apply same_dinv; [exact I|exact Logic.I|reflexivity]].
    destruct (tk_stage t) as [| |j| |] eqn:S; try (apply same_dinv; [exact I|exact Logic.I|reflexivity]).
    apply turn_dinv; auto. exact Logic.I.
  - (* a withdrawal *)
    cbn [fst snd]. constructor; cbn [ds_phase ds_queue ds_over ds_tasks ds_gone ds_links]; try apply I.
    + intro d. rewrite retracted_snoc, <- (di_gone _ _ _ I). unfold withdrawn. cbn [ds_gone existsb fst]. rewrite orb_true_iff, Nat.eqb_eq. intuition congruence.
    + intros k h. rewrite links_snoc. cbn. rewrite app_nil_r. apply (di_links _ _ _ I).
    + rewrite links_snoc. cbn. rewrite app_nil_r. apply (di_nodup _ _ _ I).
    + intros n d H. rewrite told_snoc. destruct (di_tasks _ _ _ I n d H). auto.
    + intros n d H. rewrite told_snoc. left. exact (di_queue _ _ _ I n d H).
    + intros n d H. rewrite told_snoc in H. destruct H as [H|H]; [exact (di_found _ _ _ I n d H)|discriminate].
    + intro h. rewrite times_snoc. cbn. pose proof (di_times _ _ _ I h). lia.
    + intros i t H S. pose proof (di_done _ _ _ I i t H S) as D. unfold withdrawn in *. cbn [ds_gone existsb]. rewrite D. apply orb_true_r.
    + intros i t H. apply dial_more, (di_dial _ _ _ I i t H).
Qed.
Theorem dinv_run c ops s tr : drun c disco_new ops = (s, tr) -> dinv c s tr.
Proof.
  revert s tr. induction ops as [|o ops IH] using rev_ind; intros s tr E.
  - cbn in E. injection E as <- <-. constructor; cbn; try tauto; try (intros [|i]; discriminate); try reflexivity.
    + intro b. split; [discriminate|]. intros [x []].
    + intros [|j]; cbn; split; try tauto; discriminate.
    + constructor.
    + exists (fun j => j). split; intros [|j]; discriminate.
  - rewrite drun_snoc in E. injection E as <- <-. apply step_dinv, IH, surjective_pairing.
Qed.

(** ** Consequences *)
Lemma same_host_spec n a : same_host n a = true <-> a = Some n.
Proof.
  unfold same_host. destruct a as [m|]; [|split; discriminate]. destruct (str_eqb_spec n m) as [->|N]; split; auto; congruence.
Qed.
Lemma nth_ids l i t : nth_error l i = Some t -> In (tk_node t, tk_origin t) (ids l).
Proof. intro H. apply nth_error_In in H. unfold ids. apply in_map_iff. eauto. Qed.
Lemma turn_effects s i t y : In y (snd (turn s i t)) -> y = EEnded i \/ y = EDial i (tk_node t) /\ withdrawn s (tk_origin t) = false.
Proof. unfold turn. destruct (withdrawn s (tk_origin t)) eqn:W; cbn; intros [<-|[]]; auto. Qed.

Lemma told_task c s tr i t : dinv c s tr -> nth_error (ds_tasks s) i = Some t -> withdrawn s (tk_origin t) = false ->
  exists b, told c tr (tk_node t) b /\ ~ retracted tr b /\ cf_advertise c <> Some (tk_node t).
Proof.
  intros I N W. exists (tk_origin t). destruct (di_tasks _ _ _ I _ _ (nth_ids _ _ _ N)) as [T S]. split; [exact T|]. split.
  - intro R. apply (di_gone _ _ _ I) in R. congruence.
  - intro E. apply same_host_spec in E. congruence.
Qed.
Ltac nope H := let K := fresh "K" in destruct H as [[? K]|[? K]]; cbn in K; repeat (destruct K as [K|K]; [discriminate K|]); destruct K.
Theorem only_told c ops s tr o h : drun c disco_new ops = (s, tr) ->
  (exists i, In (EDial i h) (snd (dstep c s o))) \/ (exists j, In (EOpen j h) (snd (dstep c s o))) ->
  exists b, told c tr h b /\ ~ retracted tr b /\ cf_advertise c <> Some h.
Proof.
  intros E H. pose proof (dinv_run _ _ _ _ E) as I.
  assert (Tn : forall i t, nth_error (ds_tasks s) i = Some t ->
     (exists k, In (EDial k h) (snd (turn s i t))) \/ (exists j, In (EOpen j h) (snd (turn s i t))) -> exists b, told c tr h b /\ ~ retracted tr b /\ cf_advertise c <> Some h).
  { intros i t N [[k K]|[k K]]; apply turn_effects in K; destruct K as [K|[K W]]; try discriminate. injection K as _ ->. eapply told_task; eauto. }
  destruct o as [|ok|p b| | |i|i ok|j|i|b]; cbn [dstep] in H.
  - destruct (ds_phase s); [destruct (cf_connect c) as [r|]; [destruct (same_host r _)|]| | |]; nope H.
  - destruct (ds_phase s); [|destruct ok; [destruct (cf_advertise c)|]| |]; nope H.
  - destruct (ds_phase s); [| |destruct (ds_over s); [|destruct (strip_prefix _ p)]|]; nope H.
  - destruct (ds_phase s); nope H.
  - destruct (ds_phase s); [| |destruct (ds_queue s) as [|[n b] q]; [destruct (ds_over s)|destruct (same_host n _)]|]; nope H.
  - destruct (nth_error (ds_tasks s) i) as [t|] eqn:N; [|nope H].
    destruct (tk_stage t); try (nope H); [exact (Tn _ _ N H)| |]; destruct (withdrawn s (tk_origin t)); nope H.
  - destruct (nth_error (ds_tasks s) i) as [t|] eqn:N; [|nope H].
    destruct (tk_stage t); try (nope H).
    destruct (withdrawn s (tk_origin t)) eqn:W; [nope H|]. destruct ok; [cbn in H|nope H].
    destruct H as [[k [K|[]]]|[k [K|[]]]]; [discriminate|]. injection K as _ <-. eapply told_task; eauto.
  - destruct (nth_error (ds_links s) j) as [[h' []]|]; nope H.
  - destruct (nth_error (ds_tasks s) i) as [t|] eqn:N; [|nope H].
    destruct (tk_stage t); try (nope H). exact (Tn _ _ N H).
  - nope H.
Qed.

Theorem found c ops s tr n b : drun c disco_new ops = (s, tr) -> at_rest c s ->
  told c tr n b -> cf_advertise c <> Some n -> ~ retracted tr b ->
  exists i, In (EDial i n) (deffects tr) /\ pursues c s tr i n.
Proof.
  intros E [R1 R2] T A G. pose proof (dinv_run _ _ _ _ E) as I.
  assert (Q : ds_queue s = []).
  { pose proof (di_phase _ _ _ I) as P. cbn [dstep] in R1. destruct (ds_phase s); auto. destruct (ds_queue s) as [|[m d] q] eqn:Qe; [reflexivity|]. exfalso.
    assert (L : ds_queue s = q) by (destruct (same_host m (cf_advertise c)); cbn [fst] in R1; rewrite <- R1; reflexivity).
    rewrite Qe in L. apply (f_equal (@length _)) in L. cbn in L. lia. }
  destruct (di_found _ _ _ I n b T) as [F|[F|F]].
  { apply same_host_spec in F. contradiction. }
  { rewrite Q in F. destruct F. }
  unfold ids in F. apply in_map_iff in F. destruct F as (t & Et & F). injection Et as <- <-. apply In_nth_error in F. destruct F as [i N]. exists i.
  assert (W : withdrawn s (tk_origin t) = false).
  { destruct (withdrawn s (tk_origin t)) eqn:W; [|reflexivity]. apply (di_gone _ _ _ I) in W. contradiction. }
  pose proof (di_dial _ _ _ I i t N) as D. unfold pursues. specialize (R2 i). cbn [dstep] in R2. rewrite N in R2.
  cbn [dstep]. rewrite N. destruct (tk_stage t) as [| |j| |] eqn:S.
  - exfalso. unfold turn in R2. rewrite W in R2. cbn [fst] in R2. apply (f_equal (fun s => nth_error (ds_tasks s) i)) in R2. cbn [with_task ds_tasks] in R2.
    rewrite (nth_set_same _ _ _ _ N), N in R2. injection R2 as R2. rewrite <- R2 in S. discriminate.
  - split; [exact D|]. right. left. rewrite W. eexists. reflexivity.
  - split; [exact D|]. right. right. exists j. pose proof (di_live _ _ _ I i t j N S) as L. split; [apply (di_links _ _ _ I); exact L|].
    rewrite L. cbv zeta. cbn [fst ds_tasks]. rewrite nth_error_map, N. cbn [option_map]. rewrite S, Nat.eqb_refl, W. cbn [tk_stage].
    unfold turn. cbn [tk_origin tk_node]. change (withdrawn (Disco _ _ _ _ (ds_gone s) _)) with (withdrawn s). rewrite W. reflexivity.
  - split; [exact D|]. left. unfold turn. rewrite W. reflexivity.
  - exfalso. rewrite (di_done _ _ _ I i t N S) in W. discriminate.
Qed.

(** Sessions are not more than announcements. *)
Lemma filter_nth {A} (p : A -> bool) l k :
  length (filter (fun i => match nth_error l (i - k) with Some x => p x | None => false end) (seq k (length l))) = length (filter p l).
Proof.
  revert k. induction l as [|x l IH]; intro k; [reflexivity|]. cbn [length seq filter]. rewrite Nat.sub_diag. cbn [nth_error].
  specialize (IH (S k)).
  assert (Ex : filter (fun i => match nth_error (x :: l) (i - k) with Some x => p x | None => false end) (seq (S k) (length l)) =
               filter (fun i => match nth_error l (i - S k) with Some x => p x | None => false end) (seq (S k) (length l))).
  { apply filter_ext_in. intros i Hi. apply in_seq in Hi. replace (i - k) with (S (i - S k)) by lia. reflexivity. }
  destruct (p x); cbn [length]; rewrite Ex, IH; reflexivity.
Qed.
Lemma count_bound (h : bytes) tasks (l : list nat) : NoDup l ->
  (forall i, In i l -> exists t, nth_error tasks i = Some t /\ tk_node t = h) -> length l <= count_host h (ids tasks).
Proof.
  intros N H. unfold count_host. rewrite <- (filter_nth (is_host h) (ids tasks) 0).
  apply NoDup_incl_length; [exact N|]. intros i Hi. destruct (H i Hi) as (t & Nt & Th). apply filter_In. split.
  - apply in_seq. unfold ids. rewrite map_length. assert (i < length tasks) by (apply nth_error_Some; congruence). lia.
  - rewrite Nat.sub_0_r. unfold ids. rewrite nth_error_map, Nt. cbn. unfold is_host. cbn. rewrite Th. apply str_eqb_refl.
Qed.
Lemma NoDup_map_on {A B} (f : A -> B) l : NoDup l -> (forall x y, In x l -> In y l -> f x = f y -> x = y) -> NoDup (map f l).
Proof.
  induction 1 as [|x l Nx N IH]; intro H; cbn; constructor.
  - intro K. apply in_map_iff in K. destruct K as (y & E & Hy). apply Nx. rewrite (H x y); cbn; auto.
  - apply IH. intros; apply H; cbn; auto.
Qed.
Theorem links_bound c ops s tr h : drun c disco_new ops = (s, tr) ->
  length (filter (fun k => if list_eq_dec Byte.byte_eq_dec (snd k) h then true else false) (open_links tr)) <= times_told c tr h.
Proof.
  intro E. pose proof (dinv_run _ _ _ _ E) as I. pose proof (di_times _ _ _ I h) as T. destruct (di_owner _ _ _ I) as [f [F1 F2]].
  set (l := filter _ _). assert (L : forall k, In k l -> nth_error (ds_links s) (fst k) = Some (h, true)).
  { intros [j h'] K. apply filter_In in K. destruct K as [K1 K2]. cbn [snd] in K2. destruct (list_eq_dec Byte.byte_eq_dec h' h) as [->|]; [|discriminate].
    apply (di_links _ _ _ I). exact K1. }
  assert (B : length (map (fun k => f (fst k)) l) <= count_host h (ids (ds_tasks s))).
  { apply count_bound.
    - apply NoDup_map_on; [apply NoDup_filter, (di_nodup _ _ _ I)|]. intros x y Hx Hy Ef.
      pose proof (F2 _ _ _ _ (L _ Hx) (L _ Hy) Ef) as Ej. unfold l in Hx, Hy. apply filter_In in Hx, Hy. destruct x as [j a], y as [k b']. cbn [fst snd] in *. subst k.
      destruct (list_eq_dec Byte.byte_eq_dec a h) as [->|]; [|destruct Hx; discriminate]. destruct (list_eq_dec Byte.byte_eq_dec b' h) as [->|]; [|destruct Hy; discriminate]. reflexivity.
    - intros i Hi. apply in_map_iff in Hi. destruct Hi as (k & <- & Hk). destruct (F1 _ _ (L k Hk)) as (t & T1 & T2 & _). eauto. }
  rewrite map_length in B. lia.
Qed.

(** The root. *)
Definition silent (y : deffect) : Prop := match y with EReturn | EBad => True | _ => False end.
Lemma root_step c s o : is_root c -> (ds_phase s = Idle \/ ds_phase s = Ended) -> ds_tasks s = [] -> ds_links s = [] ->
  (forall y, In y (snd (dstep c s o)) -> silent y) /\
  (ds_phase (fst (dstep c s o)) = Idle \/ ds_phase (fst (dstep c s o)) = Ended) /\ ds_tasks (fst (dstep c s o)) = [] /\ ds_links (fst (dstep c s o)) = [].
Proof.
  intros R P T L. assert (Sh : forall r, cf_connect c = Some r -> same_host r (cf_advertise c) = true).
  { intros r E. apply same_host_spec. destruct R; congruence. }
  destruct o as [|ok|p b| | |i|i ok|j|i|b]; cbn [dstep].
  - destruct P as [P|P]; rewrite P; [destruct (cf_connect c) as [r|]; [rewrite (Sh r eq_refl)|]|]; cbn; (split; [intros y [<-|[]]; exact I|auto]).
  - destruct P as [P|P]; rewrite P; cbn; (split; [intros y [<-|[]]; exact I|auto]).
  - destruct P as [P|P]; rewrite P; cbn; (split; [intros y [<-|[]]; exact I|auto]).
  - destruct P as [P|P]; rewrite P; cbn; (split; [intros y [<-|[]]; exact I|auto]).
  - destruct P as [P|P]; rewrite P; cbn; (split; [intros y [<-|[]]; exact I|auto]).
  - rewrite T. destruct i; cbn; (split; [intros y [<-|[]]; exact I|auto]).
  - rewrite T. destruct i; cbn; (split; [intros y [<-|[]]; exact I|auto]).
  - rewrite L. destruct j; cbn; (split; [intros y [<-|[]]; exact I|auto]).
  - rewrite T. destruct i; cbn; (split; [intros y [<-|[]]; exact I|auto]).
  - cbn. split; [intros y []|auto].
Qed.
Theorem root_silent c ops y : is_root c -> In y (deffects (snd (drun c disco_new ops))) -> silent y.
Proof.
  intro R. cut ((forall y, In y (deffects (snd (drun c disco_new ops))) -> silent y) /\
    (ds_phase (fst (drun c disco_new ops)) = Idle \/ ds_phase (fst (drun c disco_new ops)) = Ended) /\
    ds_tasks (fst (drun c disco_new ops)) = [] /\ ds_links (fst (drun c disco_new ops)) = []); [intros [H _]; apply H|].
  induction ops as [|o ops IH] using rev_ind; [cbn; intuition|]. rewrite drun_snoc. cbn [fst snd]. destruct IH as (S & P & T & L).
  destruct (root_step c _ o R P T L) as (S' & P'). split; [|exact P']. intros z H. rewrite deffects_snoc in H. apply in_app_iff in H. destruct H; auto.
Qed.

(** [run] returned. *)
Lemma ended_step c s o : ds_phase s = Ended -> ds_phase (fst (dstep c s o)) = Ended /\
  forall y, In y (snd (dstep c s o)) -> match y with EDialRoot _ | EAnnounce _ => False | _ => True end.
Proof.
  intro P. assert (Tn : forall i t, ds_phase (fst (turn s i t)) = Ended /\ forall y, In y (snd (turn s i t)) -> match y with EDialRoot _ | EAnnounce _ => False | _ => True end).
  { intros i t. unfold turn. destruct (withdrawn s (tk_origin t)); cbn; (split; [(exact P || reflexivity)|intros y [<-|[]]; exact I]). }
  destruct o as [|ok|p b| | |i|i ok|j|i|b]; cbn [dstep]; rewrite ?P; try (cbn; split; [(exact P || reflexivity)|intros y [<-|[]]; exact I]).
  - destruct (nth_error (ds_tasks s) i) as [t|]; [|cbn; split; [(exact P || reflexivity)|intros y [<-|[]]; exact I]].
    destruct (tk_stage t); try (cbn; split; [(exact P || reflexivity)|intros y []]); [apply Tn| |]; destruct (withdrawn s (tk_origin t)); cbn; (split; [(exact P || reflexivity)|]); try (intros y []; fail); intros y [<-|[]]; exact I.
  - destruct (nth_error (ds_tasks s) i) as [t|]; [|cbn; split; [(exact P || reflexivity)|intros y [<-|[]]; exact I]].
    destruct (tk_stage t); try (cbn; split; [(exact P || reflexivity)|intros y [<-|[]]; exact I]).
    destruct (withdrawn s (tk_origin t)); [|destruct ok]; cbn; (split; [(exact P || reflexivity)|]); try (intros y []; fail); intros y [<-|[]]; exact I.
  - destruct (nth_error (ds_links s) j) as [[h []]|]; cbn; (split; [(exact P || reflexivity)|]); try (intros y []; fail); intros y [<-|[]]; exact I.
  - destruct (nth_error (ds_tasks s) i) as [t|]; [|cbn; split; [(exact P || reflexivity)|intros y [<-|[]]; exact I]].
    destruct (tk_stage t); try (cbn; split; [(exact P || reflexivity)|intros y [<-|[]]; exact I]). apply Tn.
  - cbn. split; [(exact P || reflexivity)|intros y []].
Qed.
Lemma ended_told c s p b : ds_phase s = Ended -> snd (dstep c s (DAnnounce p b)) <> [].
Proof. intro P. cbn [dstep]. rewrite P. discriminate. Qed.
Lemma return_ends c s o : In EReturn (snd (dstep c s o)) -> ds_phase (fst (dstep c s o)) = Ended.
Proof.
  assert (Tn : forall i t, In EReturn (snd (turn s i t)) -> False).
  { intros i t H. apply turn_effects in H. destruct H as [H|[H _]]; discriminate. }
  destruct o as [|ok|p b| | |i|i ok|j|i|b]; cbn [dstep]; intro H.
  - destruct (ds_phase s); [destruct (cf_connect c) as [r|]; [destruct (same_host r _)|]| | |]; cbn in H |- *; try reflexivity; destruct H as [H|[]]; discriminate.
  - destruct (ds_phase s); [|destruct ok; [destruct (cf_advertise c)|]| |]; cbn in H |- *; try reflexivity; try (destruct H; fail); destruct H as [H|[]]; discriminate.
  - destruct (ds_phase s); [| |destruct (ds_over s); [|destruct (strip_prefix _ p)]|]; cbn in H |- *; try (destruct H; fail); destruct H as [H|[]]; discriminate.
  - destruct (ds_phase s); cbn in H |- *; try (destruct H; fail); destruct H as [H|[]]; discriminate.
  - destruct (ds_phase s); [| |destruct (ds_queue s) as [|[n b] q]; [destruct (ds_over s)|destruct (same_host n _)]|]; cbn in H |- *; try reflexivity; try (destruct H; fail); destruct H as [H|[]]; discriminate.
  - destruct (nth_error (ds_tasks s) i) as [t|]; [|destruct H as [H|[]]; discriminate].
    destruct (tk_stage t); try (destruct H; fail); [destruct (Tn _ _ H)| |]; (destruct (withdrawn s (tk_origin t)); [destruct H as [H|[]]; discriminate|destruct H]).
  - destruct (nth_error (ds_tasks s) i) as [t|]; [|destruct H as [H|[]]; discriminate].
    destruct (tk_stage t); try (destruct H as [H|[]]; discriminate). destruct (withdrawn s (tk_origin t)); [destruct H as [H|[]]; discriminate|].
    destruct ok; [destruct H as [H|[]]; discriminate|destruct H].
  - destruct (nth_error (ds_links s) j) as [[h []]|]; [destruct H| |]; destruct H as [H|[]]; discriminate.
  - destruct (nth_error (ds_tasks s) i) as [t|]; [|destruct H as [H|[]]; discriminate].
    destruct (tk_stage t); try (destruct H as [H|[]]; discriminate). destruct (Tn _ _ H).
  - destruct H.
Qed.
Theorem never_again c ops more s tr : drun c disco_new ops = (s, tr) -> In EReturn (deffects tr) ->
  (forall y, In y (deffects (snd (drun c s more))) -> match y with EDialRoot _ | EAnnounce _ => False | _ => True end) /\
  forall h b, ~ told c (snd (drun c s more)) h b.
Proof.
  intros E H.
  assert (P : ds_phase s = Ended).
  { revert s tr E H. induction ops as [|o ops IH] using rev_ind; intros s tr E H; [cbn in E; injection E as <- <-; destruct H|].
    rewrite drun_snoc in E. injection E as <- <-. rewrite deffects_snoc in H. apply in_app_iff in H. destruct H as [H|H].
    - apply ended_step. eapply IH; [apply surjective_pairing|exact H].
    - apply return_ends. exact H. }
  clear E H ops tr. revert s P. induction more as [|o more IH]; intros s P; [cbn; split; [intros y []|intros h b []]|].
  cbn [drun]. destruct (ended_step c s o P) as [P' Y]. pose proof (ended_told c s) as Et. destruct (dstep c s o) as [s1 x] eqn:D. cbn [fst snd] in *. destruct (IH s1 P') as [IH1 IH2].
  destruct (drun c s1 more) as [s2 tr]. cbn [fst snd] in *. split.
  - intros y H. cbn in H. apply in_app_iff in H. destruct H as [H|H]; [exact (Y y H)|exact (IH1 y H)].
  - intros h b [K|K]; [|exact (IH2 h b K)]. injection K as -> ->. apply (Et (place c h) b P). rewrite D. reflexivity.
Qed.
