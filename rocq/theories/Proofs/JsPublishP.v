(** What an endpoint of the JavaScript library publishes. *)
From Coq Require Import NArith ZArith Arith List Lia Bool.
From Coq Require Import ZifyBool ZifyNat ZifyN.
From Verif.Model Require Import Base JsPublish.
From Verif.Spec Require Import JsPublishSpec.
Import ListNotations.
Open Scope N_scope.

Lemma same_refl : forall p, same_path p p = true.
Proof. intros. unfold same_path. destruct (list_eq_dec N.eq_dec p p); congruence. Qed.
Lemma same_true : forall p q, same_path p q = true <-> p = q.
Proof. intros. unfold same_path. destruct (list_eq_dec N.eq_dec p q); split; congruence. Qed.
Lemma same_false : forall p q, same_path p q = false <-> p <> q.
Proof. intros. unfold same_path. destruct (list_eq_dec N.eq_dec p q); split; congruence. Qed.
Lemma jpath_same : forall p q, jpath_eqb p q = same_path p q.
Proof. reflexivity. Qed.

Lemma pset_length : forall A (l : list A) n a, length (pset l n a) = length l.
Proof. induction l; destruct n; cbn; intros; auto. Qed.
Lemma pset_inv : forall A (l : list A) n a m b, nth_error (pset l n a) m = Some b ->
  m = n /\ b = a \/ m <> n /\ nth_error l m = Some b.
Proof.
  induction l; destruct n, m; cbn; intros; try discriminate; auto.
  - injection H as <-. auto.
  - apply IHl in H. destruct H as [(-> & ->)|(H & E)]; auto.
Qed.
Lemma pset_same : forall A (l : list A) n a b, nth_error l n = Some b -> nth_error (pset l n a) n = Some a.
Proof. induction l; destruct n; cbn; intros; try discriminate; eauto. Qed.
Lemma pset_other : forall A (l : list A) n m a, n <> m -> nth_error (pset l n a) m = nth_error l m.
Proof. induction l; destruct n, m; cbn; intros; auto; try lia. Qed.

(** * Maps *)
Lemma get_delete : forall m p q, map_get (map_delete m p) q = if same_path p q then None else map_get m q.
Proof.
  unfold map_delete. induction m as [|[r b] m IH]; intros p q; cbn; [destruct (same_path p q); auto|].
  rewrite !jpath_same. destruct (same_path r p) eqn:E; cbn.
  - rewrite IH. apply same_true in E. subst r. destruct (same_path p q) eqn:Q; rewrite ?jpath_same, ?Q; auto.
  - rewrite jpath_same. destruct (same_path r q) eqn:Q; [|apply IH]. apply same_true in Q. subst r.
    apply same_false in E. destruct (same_path p q) eqn:Z; auto. apply same_true in Z. congruence.
Qed.
Lemma get_set : forall m p b q, map_get (map_set m p b) q = if same_path p q then Some b else map_get m q.
Proof. intros. unfold map_set. cbn [map_get]. rewrite jpath_same, get_delete. destruct (same_path p q); auto. Qed.

(** * Following *)
Lemma strip_some : forall pre p s, strip pre p = Some s -> p = pre ++ s.
Proof.
  induction pre as [|a pre IH]; cbn; intros p s H; [congruence|]. destruct p as [|b p]; [discriminate|].
  destruct (a =? b) eqn:E; [|discriminate]. apply N.eqb_eq in E. subst b. f_equal. auto.
Qed.
Lemma strip_none : forall pre p, strip pre p = None -> forall s, p <> pre ++ s.
Proof.
  induction pre as [|a pre IH]; cbn; intros p H s E; [discriminate|]. destruct p as [|b p]; [discriminate|].
  injection E as -> E. rewrite N.eqb_refl in H. apply (IH _ H s E).
Qed.
Lemma under_app : forall pre l1 l1' l2 l2', under pre l1 l1' -> under pre l2 l2' -> under pre (l1 ++ l2) (l1' ++ l2').
Proof. induction 1; cbn; intros; auto; [apply under_take; auto | apply under_skip; auto]. Qed.

Lemma follow_spec : forall log pre i j r, follow_next log pre i = (j, r) ->
  (i <= j <= i + length log)%nat /\ under pre (firstn (j - i) log) (match r with Some x => [x] | None => [] end) /\
  (r = None -> j = (i + length log)%nat).
Proof.
  induction log as [|[p a] log IH]; cbn; intros pre i j r H.
  - injection H as <- <-. rewrite Nat.sub_diag. cbn. split; [lia|]. split; [constructor|lia].
  - destruct (strip pre p) as [s|] eqn:E.
    + injection H as <- <-. split; [lia|]. split; [|discriminate]. replace (S i - i)%nat with 1%nat by lia. cbn.
      apply strip_some in E. subst p. repeat constructor.
    + apply IH in H. destruct H as (A & B & C). split; [lia|]. split; [|intros X; apply C in X; lia].
      replace (j - i)%nat with (S (j - S i)) by lia. cbn. apply under_skip; auto. apply strip_none; auto.
Qed.

(** * The invariants *)
Definition open_at (p : jpath) (l : list (option (jpath * nat))) : nat :=
  length (filter (fun x => match x with Some (q, _) => same_path q p | None => false end) l).
Definition closed_in (b : nat) (tr : ptrace) : Prop := In (PClose b, PDone) tr.

Record pinv (s : jpub) (tr : ptrace) : Prop := {
  p_log : jp_log s = said tr;
  p_map : forall p, map_get (jp_map s) p = standing p tr;
  p_dead : forall b, In b (jp_dead s) <-> closed_in b tr;
  p_live : forall p b, standing p tr = Some b -> exists n, nth_error (jp_tasks s) n = Some (Some (p, b));
  p_kept : forall p b out, In (PPublish p b, out) tr -> closed_in b tr \/ exists n, nth_error (jp_tasks s) n = Some (Some (p, b));
  p_count : forall p, (open_at p (jp_tasks s) + taken_back p tr = published p tr)%nat;
  p_follow : forall f pre i, nth_error (jp_follow s) f = Some (pre, i) ->
             (i <= length (jp_log s))%nat /\ under pre (firstn i (jp_log s)) (told f tr) /\ In (PFollow pre, PFollower f) tr;
  p_who : forall f pre, In (PFollow pre, PFollower f) tr -> exists i, nth_error (jp_follow s) f = Some (pre, i);
  p_nobody : forall f, (length (jp_follow s) <= f)%nat -> told f tr = [] }.

Lemma said_snoc : forall tr e, said (tr ++ [e]) =
  said tr ++ match e with (PPublish p _, _) => [(p, true)] | (_, PEnded p _) => [(p, false)] | _ => [] end.
Proof. intros. unfold said. rewrite flat_map_app. cbn. now rewrite app_nil_r. Qed.
Lemma told_snoc : forall f tr e, told f (tr ++ [e]) =
  told f tr ++ match e with (PNext g, PTold s a) => if Nat.eqb g f then [(s, a)] else [] | _ => [] end.
Proof. intros. unfold told. rewrite flat_map_app. cbn. now rewrite app_nil_r. Qed.
Lemma standing_snoc : forall p tr e, standing p (tr ++ [e]) =
  match e with
  | (PPublish q b, _) => if same_path q p then Some b else standing p tr
  | (_, PEnded q _) => if same_path q p then None else standing p tr
  | _ => standing p tr
  end.
Proof. intros. unfold standing. now rewrite fold_left_app. Qed.
Lemma published_snoc : forall p tr e, published p (tr ++ [e]) =
  (published p tr + match e with (PPublish q _, _) => if same_path q p then 1 else 0 | _ => 0 end)%nat.
Proof.
  intros. unfold published. rewrite filter_app, app_length. cbn. destruct e as [[] out]; cbn; auto.
  destruct (same_path p0 p); auto.
Qed.
Lemma back_snoc : forall p tr e, taken_back p (tr ++ [e]) =
  (taken_back p tr + match e with (PFinish _, PEnded q _) => if same_path q p then 1 else 0 | _ => 0 end)%nat.
Proof.
  intros. unfold taken_back. rewrite filter_app, app_length. cbn. destruct e as [[] []]; cbn; auto.
  destruct (same_path p0 p); auto.
Qed.

Lemma open_snoc : forall p l x, open_at p (l ++ [x]) = (open_at p l + open_at p [x])%nat.
Proof. intros. unfold open_at. now rewrite filter_app, app_length. Qed.
Lemma open_set : forall p l n q b, nth_error l n = Some (Some (q, b)) ->
  (open_at p (pset l n None) + (if same_path q p then 1 else 0) = open_at p l)%nat.
Proof.
  unfold open_at. induction l as [|x l IH]; destruct n; cbn; intros q b H; try discriminate.
  - injection H as ->. cbn. destruct (same_path q p); cbn; lia.
  - specialize (IH _ _ _ H). destruct x as [[r c]|]; cbn; auto. destruct (same_path r p); cbn; lia.
Qed.

Lemma p_init : pinv jp_init [].
Proof.
  constructor; cbn; intros; auto; try discriminate; try (destruct f; discriminate); try easy.
Qed.

Lemma closed_more : forall b tr e, closed_in b tr -> closed_in b (tr ++ [e]).
Proof. intros. apply in_or_app. auto. Qed.
Lemma closed_same : forall b tr e, (forall b, e <> (PClose b, PDone)) -> closed_in b (tr ++ [e]) <-> closed_in b tr.
Proof.
  intros. split; [|apply closed_more]. intros X. apply in_app_or in X. destruct X as [X|[X|[]]]; auto. destruct (H _ X).
Qed.

Lemma p_step : forall s tr o s' out, pinv s tr -> pstep s o = (s', out) -> pinv s' (tr ++ [(o, out)]).
Proof.
  intros s tr o s' out [LOG MAP DEAD LIVE KEPT COUNT FOLLOW WHO NOBODY] S.
  assert (STAY : forall o out, match o with PAsk _ | PFinish _ => True | PNext f => nth_error (jp_follow s) f = None | _ => False end ->
    match out with PFound _ | PNotFound | PIdle => True | _ => False end -> pinv s (tr ++ [(o, out)])).
  { clear o s' out S. intros o out H K. constructor.
    - rewrite said_snoc, LOG. destruct o, out; cbn in *; try tauto; now rewrite app_nil_r.
    - intros p. rewrite standing_snoc, MAP. destruct o, out; cbn in *; tauto.
    - intros b. rewrite DEAD. symmetry. apply closed_same. intros b' E. injection E as -> ->. auto.
    - intros p b. rewrite standing_snoc. intros X. apply LIVE. destruct o, out; cbn in *; tauto.
    - intros p b o2 X. apply in_app_or in X. destruct X as [X|[X|[]]].
      + destruct (KEPT _ _ _ X); auto using closed_more.
      + injection X as -> ->. destruct H.
    - intros p. rewrite published_snoc, back_snoc, <- COUNT. destruct o, out; cbn in *; try tauto; lia.
    - intros f pre i X. destruct (FOLLOW _ _ _ X) as (A & B & C). split; auto. rewrite told_snoc. split; [|apply in_or_app; auto].
      destruct o, out; cbn in *; try tauto; now rewrite app_nil_r.
    - intros f pre X. apply in_app_or in X. destruct X as [X|[X|[]]]; auto. injection X as -> ->. destruct K.
    - intros f X. rewrite told_snoc, (NOBODY _ X). destruct o, out; cbn in *; tauto. }
  destruct o; cbn in S.
  - injection S as <- <-. constructor; cbn [jp_map jp_log jp_tasks jp_dead jp_follow].
    + rewrite said_snoc. now rewrite LOG.
    + intros q. rewrite standing_snoc, get_set, MAP. auto.
    + intros c. rewrite DEAD. symmetry. apply closed_same. discriminate.
    + intros q c. rewrite standing_snoc. destruct (same_path p q) eqn:E.
      * intros X. injection X as ->. apply same_true in E. subst q. exists (length (jp_tasks s)). rewrite nth_error_app2, Nat.sub_diag; auto.
      * intros X. destruct (LIVE _ _ X) as [n N]. exists n. rewrite nth_error_app1; auto. apply nth_error_Some. congruence.
    + intros q c o2 X. apply in_app_or in X. destruct X as [X|[X|[]]].
      * destruct (KEPT _ _ _ X) as [|[n N]]; auto using closed_more. right. exists n. rewrite nth_error_app1; auto.
        apply nth_error_Some. congruence.
      * injection X as -> -> _. right. exists (length (jp_tasks s)). rewrite nth_error_app2, Nat.sub_diag; auto.
    + intros q. rewrite published_snoc, back_snoc, <- COUNT, open_snoc. unfold open_at at 2. cbn. destruct (same_path p q); cbn; lia.
    + intros f pre i X. destruct (FOLLOW _ _ _ X) as (A & B & C). rewrite app_length. split; [lia|]. rewrite told_snoc, app_nil_r.
      rewrite firstn_app. replace (i - length (jp_log s))%nat with O by lia. cbn. rewrite app_nil_r. split; auto. apply in_or_app; auto.
    + intros f pre X. apply in_app_or in X. destruct X as [X|[X|[]]]; auto. discriminate.
    + intros f X. rewrite told_snoc, (NOBODY _ X). auto.
  - injection S as <- <-. constructor; cbn [jp_map jp_log jp_tasks jp_dead jp_follow].
    + rewrite said_snoc. now rewrite LOG, app_nil_r.
    + intros q. now rewrite standing_snoc, MAP.
    + intros c. cbn. rewrite DEAD. unfold closed_in. rewrite in_app_iff. cbn. split.
      * intros [->|X]; auto.
      * intros [X|[X|[]]]; auto. injection X as ->. auto.
    + intros q c. rewrite standing_snoc. auto.
    + intros q c o2 X. apply in_app_or in X. destruct X as [X|[X|[]]]; [|discriminate].
      destruct (KEPT _ _ _ X); auto using closed_more.
    + intros q. rewrite published_snoc, back_snoc, <- COUNT. lia.
    + intros f pre i X. destruct (FOLLOW _ _ _ X) as (A & B & C). split; auto. rewrite told_snoc, app_nil_r. split; auto. apply in_or_app; auto.
    + intros f pre X. apply in_app_or in X. destruct X as [X|[X|[]]]; auto. discriminate.
    + intros f X. rewrite told_snoc, (NOBODY _ X). auto.
  - destruct (nth_error (jp_tasks s) n) as [[[p b]|]|] eqn:T; try (injection S as <- <-; apply STAY; cbn; auto; fail).
    destruct (existsb (Nat.eqb b) (jp_dead s)) eqn:D; [|injection S as <- <-; apply STAY; cbn; auto].
    apply existsb_exists in D. destruct D as (b' & D & E). apply Nat.eqb_eq in E. subst b'. apply DEAD in D.
    injection S as <- <-. constructor; cbn [jp_map jp_log jp_tasks jp_dead jp_follow].
    + rewrite said_snoc. now rewrite LOG.
    + intros q. rewrite standing_snoc, get_delete, MAP. auto.
    + intros c. rewrite DEAD. symmetry. apply closed_same. discriminate.
    + intros q c. rewrite standing_snoc. destruct (same_path p q) eqn:E; [discriminate|]. apply same_false in E.
      intros X. destruct (LIVE _ _ X) as [m N]. exists m. rewrite pset_other; auto. intros ->. congruence.
    + intros q c o2 X. apply in_app_or in X. destruct X as [X|[X|[]]]; [|discriminate].
      destruct (KEPT _ _ _ X) as [|[m N]]; auto using closed_more. destruct (Nat.eq_dec n m) as [->|NM].
      * left. apply closed_more. congruence.
      * right. exists m. rewrite pset_other; auto.
    + intros q. rewrite published_snoc, back_snoc, <- COUNT, <- (open_set q _ _ _ _ T). lia.
    + intros f pre i X. destruct (FOLLOW _ _ _ X) as (A & B & C). rewrite app_length. split; [lia|]. rewrite told_snoc, app_nil_r.
      rewrite firstn_app. replace (i - length (jp_log s))%nat with O by lia. cbn. rewrite app_nil_r. split; auto. apply in_or_app; auto.
    + intros f pre X. apply in_app_or in X. destruct X as [X|[X|[]]]; auto. discriminate.
    + intros f X. rewrite told_snoc, (NOBODY _ X). auto.
  - injection S as <- <-. apply STAY; cbn; auto. destruct (map_get (jp_map s) p); auto.
  - injection S as <- <-. constructor; cbn [jp_map jp_log jp_tasks jp_dead jp_follow].
    + rewrite said_snoc. now rewrite LOG, app_nil_r.
    + intros q. now rewrite standing_snoc, MAP.
    + intros c. rewrite DEAD. symmetry. apply closed_same. discriminate.
    + intros q c. rewrite standing_snoc. auto.
    + intros q c o2 X. apply in_app_or in X. destruct X as [X|[X|[]]]; [|discriminate].
      destruct (KEPT _ _ _ X); auto using closed_more.
    + intros q. rewrite published_snoc, back_snoc, <- COUNT. lia.
    + intros f pre' i X. rewrite told_snoc, app_nil_r. destruct (Nat.lt_ge_cases f (length (jp_follow s))).
      * rewrite nth_error_app1 in X by auto. destruct (FOLLOW _ _ _ X) as (A & B & C). split; auto. split; auto. apply in_or_app; auto.
      * rewrite nth_error_app2 in X by auto. destruct (f - length (jp_follow s))%nat as [|k] eqn:K; [|destruct k; discriminate].
        cbn in X. injection X as <- <-. rewrite NOBODY by auto. split; [lia|]. split; [constructor|].
        apply in_or_app. right. cbn. left. f_equal. f_equal. lia.
    + intros f pre' X. apply in_app_or in X. destruct X as [X|[X|[]]].
      * destruct (WHO _ _ X) as [i N]. exists i. rewrite nth_error_app1; auto. apply nth_error_Some. congruence.
      * injection X as <- <-. exists O. rewrite nth_error_app2, Nat.sub_diag; auto.
    + intros f X. rewrite app_length in X. rewrite told_snoc, NOBODY by lia. auto.
  - destruct (nth_error (jp_follow s) f) as [[pre i]|] eqn:F; [|injection S as <- <-; apply STAY; cbn; auto].
    destruct (follow_next (skipn i (jp_log s)) pre i) as [j r] eqn:N. injection S as <- <-.
    destruct (FOLLOW _ _ _ F) as (A & B & C). apply follow_spec in N. destruct N as (N1 & N2 & N3).
    rewrite skipn_length in *.
    constructor; cbn [jp_map jp_log jp_tasks jp_dead jp_follow].
    + rewrite said_snoc. rewrite LOG. destruct r as [[]|]; now rewrite app_nil_r.
    + intros q. rewrite standing_snoc, MAP. destruct r as [[]|]; auto.
    + intros c. rewrite DEAD. symmetry. apply closed_same. discriminate.
    + intros q c. rewrite standing_snoc. destruct r as [[]|]; auto.
    + intros q c o2 X. apply in_app_or in X. destruct X as [X|[X|[]]]; [|discriminate].
      destruct (KEPT _ _ _ X); auto using closed_more.
    + intros q. rewrite published_snoc, back_snoc, <- COUNT. lia.
    + intros g pre' i' X. apply pset_inv in X. rewrite told_snoc. destruct X as [[-> X]|[NE X]].
      * injection X as -> ->. split; [lia|]. split; [|apply in_or_app; auto].
        replace (firstn j (jp_log s)) with (firstn i (jp_log s) ++ firstn (j - i) (skipn i (jp_log s))).
        2: { rewrite firstn_skipn_comm. replace (i + (j - i))%nat with j by lia.
             rewrite <- (firstn_skipn i (firstn j (jp_log s))) at 2. rewrite firstn_firstn. f_equal. f_equal. lia. }
        apply under_app; auto. destruct r as [[x a]|]; rewrite ?Nat.eqb_refl; auto.
      * destruct (FOLLOW _ _ _ X) as (A' & B' & C'). split; auto. split; [|apply in_or_app; auto].
        destruct r as [[x a]|]; [|now rewrite app_nil_r]. destruct (Nat.eqb f g) eqn:Q; [apply Nat.eqb_eq in Q; congruence|now rewrite app_nil_r].
    + intros g pre' X. apply in_app_or in X. destruct X as [X|[X|[]]]; [|discriminate].
      destruct (WHO _ _ X) as [k K]. destruct (Nat.eq_dec f g) as [->|NE].
      * rewrite F in K. injection K as -> ->. exists j. eapply pset_same; eauto.
      * exists k. rewrite pset_other; auto.
    + intros g X. rewrite pset_length in X. rewrite told_snoc, (NOBODY _ X).
      destruct r as [[x a]|]; auto. destruct (Nat.eqb f g) eqn:Q; auto. apply Nat.eqb_eq in Q. subst g.
      exfalso. assert (nth_error (jp_follow s) f = None) by (apply nth_error_None; auto). congruence.
Qed.

Lemma p_run_from : forall ops s tr s' tr', pinv s tr -> prun s ops = (s', tr') -> pinv s' (tr ++ tr').
Proof.
  induction ops as [|o ops IH]; cbn; intros s tr s' tr' J H.
  - injection H as <- <-. now rewrite app_nil_r.
  - destruct (pstep s o) as [s1 out] eqn:S. destruct (prun s1 ops) as [s2 tr2] eqn:E. injection H as <- <-.
    pose proof (p_step _ _ _ _ _ J S) as J1. specialize (IH _ _ _ _ J1 E). now rewrite <- app_assoc in IH.
Qed.
Lemma p_run : forall ops s tr, prun jp_init ops = (s, tr) -> pinv s tr.
Proof. intros. apply (p_run_from ops jp_init [] s tr p_init H). Qed.

(** * Followers *)
Lemma followed : forall ops s tr f pre, prun jp_init ops = (s, tr) -> In (PFollow pre, PFollower f) tr ->
  (exists l rest, said tr = l ++ rest /\ under pre l (told f tr)) /\
  (snd (pstep s (PNext f)) = PIdle -> under pre (said tr) (told f tr)).
Proof.
  intros ops s tr f pre H I. apply p_run in H. destruct (p_who _ _ H _ _ I) as [i F]. destruct (p_follow _ _ H _ _ _ F) as (A & B & _).
  rewrite (p_log _ _ H) in *. split.
  - exists (firstn i (said tr)), (skipn i (said tr)). split; auto. now rewrite firstn_skipn.
  - cbn. rewrite F, (p_log _ _ H). destruct (follow_next (skipn i (said tr)) pre i) as [j r] eqn:N. destruct r as [[x a]|]; [discriminate|]. intros _.
    apply follow_spec in N. destruct N as (N1 & N2 & N3). specialize (N3 eq_refl). rewrite skipn_length in N3.
    rewrite firstn_all2 in N2 by (rewrite skipn_length; lia).
    rewrite <- (firstn_skipn i (said tr)). rewrite <- (app_nil_r (told f tr)). apply under_app; auto.
Qed.

(** * Asking *)
Lemma word_standing : forall p tr, last_word p (said tr) = match standing p tr with Some _ => true | None => false end.
Proof.
  intros p tr. induction tr as [|e tr IH] using rev_ind; auto. rewrite said_snoc, standing_snoc. unfold last_word in *. rewrite fold_left_app, IH.
  destruct e as [[] []]; cbn; auto; match goal with |- context [same_path ?q p] => destruct (same_path q p) end; auto.
Qed.

Lemma asked : forall ops s tr p, prun jp_init ops = (s, tr) ->
  snd (pstep s (PAsk p)) = match standing p tr with Some b => PFound b | None => PNotFound end /\
  last_word p (said tr) = match standing p tr with Some _ => true | None => false end.
Proof. intros ops s tr p H. apply p_run in H. cbn. rewrite (p_map _ _ H). split; auto. apply word_standing. Qed.

Lemma calm_live : forall ops s tr p b, prun jp_init ops = (s, tr) -> settled_down s -> standing p tr = Some b -> ~ In (PClose b, PDone) tr.
Proof.
  intros ops s tr p b H Q ST C. apply p_run in H. destruct (p_live _ _ H _ _ ST) as [n N]. specialize (Q n). cbn in Q. rewrite N in Q.
  assert (E : existsb (Nat.eqb b) (jp_dead s) = true).
  { apply existsb_exists. exists b. split; [apply (p_dead _ _ H); auto|apply Nat.eqb_refl]. }
  rewrite E in Q. discriminate.
Qed.

(** * In order *)
Lemma orderly_app : forall b a, orderly (a ++ b) -> orderly a.
Proof. intros b a O x p n out c ->. apply (O x p n out (c ++ b)). now rewrite <- app_assoc, <- app_comm_cons. Qed.

Lemma open_some : forall p l n b, nth_error l n = Some (Some (p, b)) -> (1 <= open_at p l)%nat.
Proof. intros. rewrite <- (open_set p _ _ _ _ H), same_refl. lia. Qed.
Lemma open_two : forall p l n m b c, n <> m -> nth_error l n = Some (Some (p, b)) -> nth_error l m = Some (Some (p, c)) -> (2 <= open_at p l)%nat.
Proof.
  intros p l n m b c NM A B. rewrite <- (open_set p _ _ _ _ A), same_refl.
  assert (1 <= open_at p (pset l n None))%nat by (eapply (open_some p _ m c); rewrite pset_other; auto). lia.
Qed.

Definition oinv (s : jpub) (tr : ptrace) : Prop :=
  (forall p, (open_at p (jp_tasks s) <= 1)%nat) /\
  (forall n p b, nth_error (jp_tasks s) n = Some (Some (p, b)) -> standing p tr = Some b) /\
  (forall p, in_turn true (about p (said tr)) /\ last_word p (said tr) = match about p (said tr) with [] => false | _ => last (about p (said tr)) true end).

Lemma about_app : forall p l m, about p (l ++ m) = about p l ++ about p m.
Proof. intros. unfold about. now rewrite filter_app, map_app. Qed.
Lemma turn_snoc : forall l b, in_turn b l -> in_turn b (l ++ [match l with [] => b | _ => negb (last l true) end]).
Proof.
  induction l as [|x l IH]; intros b H; cbn; [repeat constructor|]. inversion H as [|b' l' H1]; subst. constructor. specialize (IH _ H1).
  destruct l as [|y l]; [auto|exact IH].
Qed.

Lemma said_turn : forall p tr b, (forall q, in_turn true (about q (said tr)) /\ last_word q (said tr) = match about q (said tr) with [] => false | _ => last (about q (said tr)) true end) ->
  last_word p (said tr) = negb b -> forall q,
  in_turn true (about q (said tr ++ [(p, b)])) /\
  last_word q (said tr ++ [(p, b)]) = match about q (said tr ++ [(p, b)]) with [] => false | _ => last (about q (said tr ++ [(p, b)])) true end.
Proof.
  intros p tr b T W q. destruct (T q) as [A B]. rewrite about_app. unfold last_word in *. rewrite fold_left_app. cbn.
  replace (about q [(p, b)]) with (if same_path p q then [b] else []) by (unfold about; cbn; destruct (same_path p q); auto).
  destruct (same_path p q) eqn:E; cbn.
  - apply same_true in E. subst q. rewrite W in B. pose proof (turn_snoc _ _ A) as X.
    destruct (about p (said tr)) as [|x l] eqn:AB.
    + destruct b; [|discriminate]. cbn. split; auto.
    + rewrite <- B, negb_involutive in X. split; [exact X|]. cbn [app]. rewrite app_comm_cons, last_last. auto.
  - rewrite app_nil_r. split; auto. 
Qed.

Lemma o_step : forall s tr o s' out, pinv s tr -> oinv s tr -> orderly (tr ++ [(o, out)]) -> pstep s o = (s', out) -> oinv s' (tr ++ [(o, out)]).
Proof.
  intros s tr o s' out P (O1 & O2 & O3) OR S.
  assert (STAY : forall o out, match o with PPublish _ _ => False | _ => True end -> match out with PEnded _ _ => False | _ => True end ->
    jp_tasks s' = jp_tasks s -> oinv s' (tr ++ [(o, out)])).
  { clear o out S OR. intros o out H K E. unfold oinv. rewrite E. split; auto. split.
    - intros n p b N. rewrite standing_snoc. rewrite <- (O2 _ _ _ N). destruct o, out; cbn in *; tauto.
    - intros p. rewrite said_snoc.
      replace (match (o, out) with (PPublish p _, _) => [(p, true)] | (_, PEnded p _) => [(p, false)] | _ => [] end) with (@nil (jpath * bool)).
      + rewrite app_nil_r. auto.
      + destruct o, out; cbn in *; tauto. }
  destruct o; cbn in S.
  - injection S as <- <-. specialize (OR tr p b _ [] eq_refl). pose proof (p_count _ _ P p) as C.
    assert (Z : open_at p (jp_tasks s) = O) by lia. split; [|split]; cbn [jp_tasks].
    + intros q. rewrite open_snoc. unfold open_at at 2. cbn. destruct (same_path p q) eqn:E; cbn; [apply same_true in E; subst q; lia|].
      specialize (O1 q). lia.
    + intros n q c N. rewrite standing_snoc. destruct (Nat.lt_ge_cases n (length (jp_tasks s))).
      * rewrite nth_error_app1 in N by auto. destruct (same_path p q) eqn:E; eauto. apply same_true in E. subst q.
        apply open_some in N. lia.
      * rewrite nth_error_app2 in N by auto. destruct (n - length (jp_tasks s))%nat as [|k]; [|destruct k; discriminate].
        cbn in N. injection N as <- <-. now rewrite same_refl.
    + rewrite said_snoc. apply said_turn; auto. rewrite word_standing. destruct (standing p tr) eqn:ST; auto.
      destruct (p_live _ _ P _ _ ST) as [m M]. apply open_some in M. lia.
  - injection S as <- <-. apply STAY; cbn; auto.
  - destruct (nth_error (jp_tasks s) n) as [[[p b]|]|] eqn:T; try (injection S as <- <-; apply STAY; cbn; auto; fail).
    destruct (existsb (Nat.eqb b) (jp_dead s)) eqn:D; injection S as <- <-; [|apply STAY; cbn; auto].
    split; [|split]; cbn [jp_tasks].
    + intros q. pose proof (open_set q _ _ _ _ T). specialize (O1 q). lia.
    + intros m q c N. apply pset_inv in N. destruct N as [[_ N]|[NM N]]; [discriminate|]. rewrite standing_snoc.
      destruct (same_path p q) eqn:E; eauto. apply same_true in E. subst q. pose proof (open_two p _ _ _ _ _ NM N T). specialize (O1 p). lia.
    + rewrite said_snoc. apply said_turn; auto. rewrite word_standing, (O2 _ _ _ T). auto.
  - injection S as <- <-. apply STAY; cbn; auto. destruct (map_get (jp_map s) p); auto.
  - injection S as <- <-. apply STAY; cbn; auto.
  - destruct (nth_error (jp_follow s) f) as [[pre i]|]; [|injection S as <- <-; apply STAY; cbn; auto].
    destruct (follow_next (skipn i (jp_log s)) pre i) as [j r]. injection S as <- <-. apply STAY; cbn; auto. destruct r as [[]|]; auto.
Qed.

Lemma o_run_from : forall ops s tr s' tr', pinv s tr -> oinv s tr -> orderly (tr ++ tr') -> prun s ops = (s', tr') -> oinv s' (tr ++ tr').
Proof.
  induction ops as [|o ops IH]; cbn; intros s tr s' tr' P O OR H.
  - injection H as <- <-. now rewrite app_nil_r.
  - destruct (pstep s o) as [s1 out] eqn:S. destruct (prun s1 ops) as [s2 tr2] eqn:E. injection H as <- <-.
    assert (EQ : tr ++ (o, out) :: tr2 = (tr ++ [(o, out)]) ++ tr2) by (now rewrite <- app_assoc). rewrite EQ in *.
    eapply IH; eauto; [eapply p_step; eauto|]. eapply o_step; eauto. eapply orderly_app; eauto.
Qed.
Lemma o_run : forall ops s tr, prun jp_init ops = (s, tr) -> orderly tr -> oinv s tr.
Proof.
  intros ops s tr H OR. refine (o_run_from ops jp_init [] s tr p_init _ OR H). split; [|split]; cbn; intros; auto.
  - destruct n; discriminate.
  - split; [constructor|reflexivity].
Qed.

Lemma live_found : forall ops s tr p b out, prun jp_init ops = (s, tr) -> orderly tr ->
  In (PPublish p b, out) tr -> ~ In (PClose b, PDone) tr -> standing p tr = Some b.
Proof.
  intros ops s tr p b out H OR I NC. pose proof (o_run _ _ _ H OR) as (_ & O & _). apply p_run in H.
  destruct (p_kept _ _ H _ _ _ I) as [C|[n N]]; [destruct (NC C)|eauto].
Qed.
Lemma announced_in_turn : forall ops s tr p, prun jp_init ops = (s, tr) -> orderly tr -> in_turn true (about p (said tr)).
Proof. intros ops s tr p H OR. destruct (o_run _ _ _ H OR) as (_ & _ & T). apply T. Qed.
