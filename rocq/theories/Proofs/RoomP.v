(** A room. *)
From Coq Require Import NArith Arith List Lia Bool.
From Coq Require Import Init.Byte Strings.Byte.
From Verif.Model Require Import Base Map OriginSys Room.
From Verif.Spec Require Import RoomSpec.
From Verif.Proofs Require Import MapP OriginP.
Import ListNotations.

Lemma rrun_app s a b : rrun s (a ++ b) =
  (fst (rrun (fst (rrun s a)) b), snd (rrun s a) ++ snd (rrun (fst (rrun s a)) b)).
Proof.
  revert s. induction a as [|o a IH]; intro s; cbn [app rrun fst snd].
  - apply surjective_pairing.
  - destruct (rstep s o) as [s1 x]. rewrite IH. destruct (rrun s1 a) as [s2 tr]. reflexivity.
Qed.
Lemma rrun_snoc s ops o : rrun s (ops ++ [o]) =
  (fst (rstep (fst (rrun s ops)) o), snd (rrun s ops) ++ [(o, snd (rstep (fst (rrun s ops)) o))]).
Proof. rewrite rrun_app. cbn [rrun]. destruct (rstep (fst (rrun s ops)) o). reflexivity. Qed.

Lemma inb_spec n l : inb n l = true <-> In n l.
Proof.
  unfold inb. rewrite existsb_exists. split.
  - intros (m & H & E). destruct (str_eqb_spec n m); [congruence|discriminate].
  - intro H. exists n. split; [exact H|apply str_eqb_refl].
Qed.
Lemma listed_spec n l : listed n l = true <-> In n l.
Proof.
  unfold listed. rewrite existsb_exists. split.
  - intros (m & H & E). destruct (list_eq_dec Byte.byte_eq_dec n m) as [->|]; [exact H|discriminate].
  - intro H. exists n. split; [exact H|]. destruct (list_eq_dec Byte.byte_eq_dec n n) as [|C]; [reflexivity|destruct C; reflexivity].
Qed.
Lemma set_insert_spec m n l : In m (set_insert n l) <-> m = n \/ In m l.
Proof.
  unfold set_insert. destruct (inb n l) eqn:E.
  - apply inb_spec in E. split; [auto|]. intros [->|H]; auto.
  - cbn. firstorder.
Qed.
Lemma set_remove_spec m n l : In m (set_remove n l) <-> m <> n /\ In m l.
Proof.
  unfold set_remove. rewrite filter_In. destruct (str_eqb_spec n m) as [->|H]; cbn; intuition congruence.
Qed.
Lemma in_room_spec path p n : in_room path p = Some n <-> p = path ++ n.
Proof.
  unfold in_room. destruct (list_eq_dec _ _ _) as [E|E].
  - split; [intros [= <-]|intros ->].
    + rewrite <- E at 1. symmetry. apply firstn_skipn.
    + f_equal. rewrite skipn_app, skipn_all, Nat.sub_diag. reflexivity.
  - split; [discriminate|]. intros ->. destruct E. rewrite firstn_app, firstn_all, Nat.sub_diag, app_nil_r. reflexivity.
Qed.
Lemma strip_in_room path p : strip_prefix path p = in_room path p.
Proof.
  destruct (in_room path p) as [n|] eqn:E.
  - apply in_room_spec in E. apply strip_prefix_spec. exact E.
  - destruct (strip_prefix path p) as [n|] eqn:S; [|reflexivity]. apply strip_prefix_spec, in_room_spec in S. congruence.
Qed.
Lemma drop_nth_In {A} i (l : list A) x : In x (drop_nth i l) -> In x l.
Proof. revert i. induction l as [|y l IH]; intros [|i]; cbn; auto. intros [H|H]; eauto. Qed.

(** The loop of [watch]. *)
Lemma watch_loop_spec pb q found r : watch_loop pb q = (found, r) ->
  exists d, (forall e, In e d -> In (fst e) pb) /\ q = d ++ match found with Some e => e :: r | None => [] end /\
  match found with Some e => ~ In (fst e) pb | None => r = [] end.
Proof.
  induction q as [|[n b] q IH]; cbn; [intros [= <- <-]; exists []; cbn; intuition|].
  destruct (inb n pb) eqn:E.
  - intro H. destruct (IH H) as (d & D & -> & F). exists ((n, b) :: d). split; [|split; [reflexivity|exact F]].
    intros e [<-|He]; [apply inb_spec; exact E|auto].
  - intros [= <- <-]. exists []. split; [intros e []|]. split; [reflexivity|]. cbn. intro H. apply inb_spec in H. congruence.
Qed.

(** ** Folding over the events *)
Definition endedb (tr : revents) : bool := existsb (fun e => match fst e with REnd => true | _ => false end) tr.
Lemma endedb_snoc tr e : endedb (tr ++ [e]) = endedb tr || match fst e with REnd => true | _ => false end.
Proof. unfold endedb. rewrite existsb_app. cbn. rewrite orb_false_r. reflexivity. Qed.
Lemma shown_snoc tr e : shown (tr ++ [e]) = shown tr ++ match e with (RWatch, RFound n b) => [(n, b)] | _ => [] end.
Proof. unfold shown. rewrite flat_map_app. cbn. rewrite app_nil_r. reflexivity. Qed.
Lemma own_snoc tr e : own_names (tr ++ [e]) = own_names tr ++ match fst e with RPublish n _ => [n] | _ => [] end.
Proof. unfold own_names. rewrite flat_map_app. cbn. rewrite app_nil_r. reflexivity. Qed.
Lemma announced_snoc path tr o x : announced path (tr ++ [(o, x)]) = announced path tr ++
  match o with RAnnounce p b => if endedb tr then [] else match in_room path p with Some n => [(n, b)] | None => [] end | _ => [] end.
Proof.
  induction tr as [|[o' x'] tr IH].
  - destruct o; reflexivity.
  - cbn [app].
    destruct o'; cbn [announced]; try (rewrite IH; reflexivity).
    + destruct (in_room path path0); [cbn [app]; f_equal|]; rewrite IH; reflexivity.
    + cbn. destruct o; reflexivity.
Qed.
Lemma others_snoc tr e l : others (tr ++ [e]) l =
  match fst e with RPublish n _ => filter (fun i => negb (listed (fst i) [n])) (others tr l) | _ => others tr l end.
Proof.
  unfold others. rewrite own_snoc. destruct (fst e) eqn:E; try (rewrite app_nil_r; reflexivity).
  assert (L : forall i : bytes * nat, negb (listed (fst i) (own_names tr ++ [name])) = negb (listed (fst i) (own_names tr)) && negb (listed (fst i) [name])).
  { intro i. unfold listed. rewrite existsb_app. apply negb_orb. }
  induction l as [|i l IH]; [reflexivity|]. cbn [filter]. rewrite L, IH. destruct (listed (fst i) (own_names tr)); cbn [negb andb]; [reflexivity|].
  cbn [filter]. destruct (negb (listed (fst i) [name])); reflexivity.
Qed.
Lemma others_app tr l m : others tr (l ++ m) = others tr l ++ others tr m.
Proof. apply filter_app. Qed.
Lemma others_own tr l : (forall e, In e l -> In (fst e) (own_names tr)) -> others tr l = [].
Proof.
  intro H. unfold others. induction l as [|e l IH]; [reflexivity|]. cbn. rewrite (proj2 (listed_spec _ _) (H e (or_introl eq_refl))). cbn.
  apply IH. intros; apply H; cbn; auto.
Qed.

Record rinv (path : bytes) (s : room) (tr : revents) : Prop := {
  ri_path : rm_path s = path;
  ri_over : rm_over s = endedb tr;
  ri_closed : forall b, In b (rm_closed s) <-> shut tr b;
  ri_tasks : forall n b, In (n, b) (rm_tasks s) -> mine tr n b;
  ri_pub : forall n, In n (rm_publishing s) -> In n (own_names tr);
  ri_open : forall n, In n (own_names tr) -> (forall b, mine tr n b -> ~ shut tr b) -> In n (rm_publishing s);
  ri_queue : others tr (announced path tr) = others tr (shown tr) ++ others tr (rm_queue s);
  ri_real : forall e, In e (shown tr ++ rm_queue s) -> In e (announced path tr) }.

Lemma mine_snoc tr e n b : mine (tr ++ [e]) n b <-> mine tr n b \/ fst e = RPublish n b.
Proof.
  unfold mine. split.
  - intros [x H]. apply in_app_iff in H. destruct H as [H|[->|[]]]; [left; eauto|right; reflexivity].
  - intros [[x H]|H]; [exists x; apply in_app_iff; auto|]. destruct e as [o x]. cbn in H. subst. exists x. apply in_app_iff. cbn. auto.
Qed.
Lemma shut_snoc tr e b : shut (tr ++ [e]) b <-> shut tr b \/ fst e = RClose b.
Proof.
  unfold shut. split.
  - intros [x H]. apply in_app_iff in H. destruct H as [H|[->|[]]]; [left; eauto|right; reflexivity].
  - intros [[x H]|H]; [exists x; apply in_app_iff; auto|]. destruct e as [o x]. cbn in H. subst. exists x. apply in_app_iff. cbn. auto.
Qed.

Lemma step_rinv path s tr o : rinv path s tr -> rinv path (fst (rstep s o)) (tr ++ [(o, snd (rstep s o))]).
Proof.
  intros [P O C T B Op Q R].
  destruct o as [n b|b|i|p b| |].
  - (* publish *)
    cbn [rstep fst snd]. constructor; cbn [rm_path rm_queue rm_over rm_publishing rm_tasks rm_closed].
    + exact P.
    + rewrite endedb_snoc, O. cbn. rewrite orb_false_r. reflexivity.
    + intro c. rewrite shut_snoc, C. cbn. intuition discriminate.
    + intros m c H. rewrite mine_snoc. apply in_app_iff in H. destruct H as [H|[[= <- <-]|[]]]; [left; auto|right; reflexivity].
    + intros m H. rewrite own_snoc. cbn. apply in_app_iff. apply set_insert_spec in H. destruct H as [->|H]; [right; cbn; auto|left; auto].
    + intros m H N. rewrite own_snoc in H. cbn in H. apply set_insert_spec. apply in_app_iff in H. destruct H as [H|[<-|[]]]; [|auto]. right.
      apply Op; [exact H|]. intros c M S. apply (N c); [rewrite mine_snoc; auto|rewrite shut_snoc; auto].
    + rewrite !others_snoc, announced_snoc, shown_snoc. cbn [fst]. rewrite !app_nil_r, Q. apply filter_app.
    + rewrite announced_snoc, shown_snoc, !app_nil_r. exact R.
  - (* close *)
    cbn [rstep fst snd]. constructor; cbn [rm_path rm_queue rm_over rm_publishing rm_tasks rm_closed].
    + exact P.
    + rewrite endedb_snoc, O. cbn. rewrite orb_false_r. reflexivity.
    + intro c. rewrite shut_snoc, <- C. cbn. split; intros [H|H]; solve [auto|right; congruence|left; congruence].
    + intros m c H. rewrite mine_snoc. auto.
    + intros m H. rewrite own_snoc. cbn. rewrite app_nil_r. auto.
    + intros m H N. rewrite own_snoc in H. cbn in H. rewrite app_nil_r in H. apply Op; [exact H|].
      intros c M S. apply (N c); [rewrite mine_snoc; auto|rewrite shut_snoc; auto].
    + rewrite !others_snoc, announced_snoc, shown_snoc. cbn [fst]. rewrite !app_nil_r. exact Q.
    + rewrite announced_snoc, shown_snoc, !app_nil_r. exact R.
  - (* a task *)
    set (x := snd (rstep s (RTask i))).
    assert (Q' : others (tr ++ [(RTask i, x)]) (announced path (tr ++ [(RTask i, x)])) =
                 others (tr ++ [(RTask i, x)]) (shown (tr ++ [(RTask i, x)])) ++ others (tr ++ [(RTask i, x)]) (rm_queue s)).
    { rewrite !others_snoc, announced_snoc, shown_snoc. cbn [fst]. rewrite !app_nil_r. exact Q. }
    assert (R' : forall e, In e (shown (tr ++ [(RTask i, x)]) ++ rm_queue s) -> In e (announced path (tr ++ [(RTask i, x)]))).
    { rewrite announced_snoc, shown_snoc, !app_nil_r. exact R. }
    assert (O' : rm_over s = endedb (tr ++ [(RTask i, x)])) by (rewrite endedb_snoc, O; cbn; rewrite orb_false_r; reflexivity).
    assert (C' : forall c, In c (rm_closed s) <-> shut (tr ++ [(RTask i, x)]) c) by (intro c; rewrite shut_snoc, C; cbn; intuition discriminate).
    assert (M' : forall n b, mine tr n b -> mine (tr ++ [(RTask i, x)]) n b) by (intros; rewrite mine_snoc; auto).
    assert (N' : own_names (tr ++ [(RTask i, x)]) = own_names tr) by (rewrite own_snoc; apply app_nil_r).
    assert (Op' : forall n, In n (own_names tr) -> (forall b, mine (tr ++ [(RTask i, x)]) n b -> ~ shut (tr ++ [(RTask i, x)]) b) -> In n (rm_publishing s)).
    { intros n H N. apply Op; [exact H|]. intros b M S. apply (N b); [auto|]. rewrite shut_snoc; auto. }
    assert (E : (fst (rstep s (RTask i)) = s) \/ exists n b, nth_error (rm_tasks s) i = Some (n, b) /\ In b (rm_closed s) /\
      fst (rstep s (RTask i)) = Room (rm_path s) (rm_queue s) (rm_over s) (set_remove n (rm_publishing s)) (drop_nth i (rm_tasks s)) (rm_closed s)).
    { cbn [rstep]. destruct (nth_error (rm_tasks s) i) as [[n b]|]; [|auto]. destruct (existsb (Nat.eqb b) (rm_closed s)) eqn:Ex; [|auto].
      right. exists n, b. apply existsb_exists in Ex. destruct Ex as (c & Hc & Ec). apply Nat.eqb_eq in Ec. subst c. auto. }
    destruct E as [E|(n & b & Nt & Cl & E)]; rewrite E.
    + constructor; auto; rewrite N'; auto.
    + constructor; cbn [rm_path rm_queue rm_over rm_publishing rm_tasks rm_closed]; auto.
      * intros m c H. apply drop_nth_In in H. auto.
      * intros m H. apply set_remove_spec in H. rewrite N'. apply B. tauto.
      * intros m H N. rewrite N' in H. apply set_remove_spec. split; [|auto]. intros ->.
        apply (N b); [|apply C'; exact Cl]. apply M', T. apply nth_error_In in Nt. exact Nt.
  - (* announced *)
    assert (E : rstep s (RAnnounce p b) = (Room (rm_path s) (rm_queue s ++ (if rm_over s then [] else match in_room path p with Some n => [(n, b)] | None => [] end))
        (rm_over s) (rm_publishing s) (rm_tasks s) (rm_closed s), RUnit)).
    { cbn [rstep]. rewrite strip_in_room, P. destruct (rm_over s) eqn:V; [|destruct (in_room path p)]; cbn iota; rewrite ?app_nil_r; try reflexivity;
        destruct s; cbn in *; subst; reflexivity. }
    rewrite E. cbn [fst snd]. constructor; cbn [rm_path rm_queue rm_over rm_publishing rm_tasks rm_closed].
    + exact P.
    + rewrite endedb_snoc, O. cbn. rewrite orb_false_r. reflexivity.
    + intro c. rewrite shut_snoc, C. cbn. intuition discriminate.
    + intros m c H. rewrite mine_snoc. auto.
    + intros m H. rewrite own_snoc. cbn. rewrite app_nil_r. auto.
    + intros m H N. rewrite own_snoc in H. cbn in H. rewrite app_nil_r in H. apply Op; [exact H|].
      intros c M S. apply (N c); [rewrite mine_snoc; auto|rewrite shut_snoc; auto].
    + rewrite !others_snoc, announced_snoc, shown_snoc. cbn [fst]. rewrite app_nil_r, !others_app, Q, O, app_assoc. reflexivity.
    + rewrite announced_snoc, shown_snoc, app_nil_r, O. intros e H. rewrite app_assoc in H. apply in_app_iff in H. apply in_app_iff.
      destruct H as [H|H]; auto.
  - (* the end *)
    cbn [rstep fst snd]. constructor; cbn [rm_path rm_queue rm_over rm_publishing rm_tasks rm_closed].
    + exact P.
    + rewrite endedb_snoc. cbn. rewrite orb_true_r. reflexivity.
    + intro c. rewrite shut_snoc, C. cbn. intuition discriminate.
    + intros m c H. rewrite mine_snoc. auto.
    + intros m H. rewrite own_snoc. cbn. rewrite app_nil_r. auto.
    + intros m H N. rewrite own_snoc in H. cbn in H. rewrite app_nil_r in H. apply Op; [exact H|].
      intros c M S. apply (N c); [rewrite mine_snoc; auto|rewrite shut_snoc; auto].
    + rewrite !others_snoc, announced_snoc, shown_snoc. cbn [fst]. rewrite !app_nil_r. exact Q.
    + rewrite announced_snoc, shown_snoc, !app_nil_r. exact R.
  - (* watch *)
    cbn [rstep]. destruct (watch_loop (rm_publishing s) (rm_queue s)) as [found q] eqn:W. cbn [fst snd].
    destruct (watch_loop_spec _ _ _ _ W) as (d & D & Eq & F).
    assert (Od : others tr d = []) by (apply others_own; auto).
    assert (Sh : forall x, shown (tr ++ [(RWatch, x)]) = shown tr ++ match x with RFound n b => [(n, b)] | _ => [] end) by (intro; apply shown_snoc).
    constructor; cbn [rm_path rm_queue rm_over rm_publishing rm_tasks rm_closed].
    + exact P.
    + rewrite endedb_snoc, O. cbn. rewrite orb_false_r. reflexivity.
    + intro c. rewrite shut_snoc, C. cbn. intuition discriminate.
    + intros m c H. rewrite mine_snoc. auto.
    + intros m H. rewrite own_snoc. cbn. rewrite app_nil_r. auto.
    + intros m H N. rewrite own_snoc in H. cbn in H. rewrite app_nil_r in H. apply Op; [exact H|].
      intros c M S. apply (N c); [rewrite mine_snoc; auto|rewrite shut_snoc; auto].
    + rewrite !others_snoc, announced_snoc, Sh. cbn [fst]. rewrite app_nil_r, Q, Eq, !others_app, Od. cbn [app].
      destruct found as [[n b]|].
      * rewrite <- app_assoc. f_equal. apply (others_app tr [(n, b)] q).
      * subst q. destruct (rm_over s); cbn; rewrite !app_nil_r; reflexivity.
    + rewrite announced_snoc, Sh, app_nil_r. intros e H. apply R. rewrite Eq. rewrite <- app_assoc in H. rewrite !in_app_iff in *.
      destruct found as [[n b]|]; cbn in *; [tauto|]. subst q. destruct (rm_over s); cbn in *; tauto.
Qed.
Theorem rinv_run path ops s tr : rrun (room_new path) ops = (s, tr) -> rinv path s tr.
Proof.
  revert s tr. induction ops as [|o ops IH] using rev_ind; intros s tr E.
  - cbn in E. injection E as <- <-. constructor; cbn; try tauto; try reflexivity. intro b. split; [tauto|]. intros [x []].
  - rewrite rrun_snoc in E. injection E as <- <-. apply step_rinv. apply IH. apply surjective_pairing.
Qed.

(** ** Consequences *)
Lemma watch_out s n b : snd (rstep s RWatch) = RFound n b -> ~ In n (rm_publishing s) /\ In (n, b) (rm_queue s).
Proof.
  cbn [rstep]. destruct (watch_loop (rm_publishing s) (rm_queue s)) as [found q] eqn:W. cbn [snd].
  destruct (watch_loop_spec _ _ _ _ W) as (d & _ & Eq & F). destruct found as [[m c]|]; [|destruct (rm_over s); discriminate].
  intros [= -> ->]. split; [exact F|]. rewrite Eq. apply in_app_iff. cbn. auto.
Qed.
Theorem hidden_while_open path ops s tr n b : rrun (room_new path) ops = (s, tr) ->
  In n (own_names tr) -> (forall c, mine tr n c -> ~ shut tr c) -> snd (rstep s RWatch) <> RFound n b.
Proof. intros E H N W. pose proof (rinv_run _ _ _ _ E) as I. apply watch_out in W. apply (proj1 W). apply (ri_open _ _ _ I); auto. Qed.
Theorem others_shown path ops s tr : rrun (room_new path) ops = (s, tr) ->
  (exists rest, others tr (announced path tr) = others tr (shown tr) ++ rest) /\
  (snd (rstep s RWatch) = RPending \/ snd (rstep s RWatch) = RNone -> others tr (announced path tr) = others tr (shown tr)).
Proof.
  intro E. pose proof (rinv_run _ _ _ _ E) as I. split; [eexists; apply (ri_queue _ _ _ I)|].
  intro H. rewrite (ri_queue _ _ _ I). cbn [rstep] in H. destruct (watch_loop (rm_publishing s) (rm_queue s)) as [found q] eqn:W. cbn [snd] in H.
  destruct (watch_loop_spec _ _ _ _ W) as (d & D & Eq & F). destruct found as [[m c]|]; [destruct H; discriminate|].
  rewrite app_nil_r in Eq. subst d. rewrite (others_own tr (rm_queue s)); [apply app_nil_r|]. intros e He. apply (ri_pub _ _ _ I). auto.
Qed.
Theorem watch_over path ops s tr : rrun (room_new path) ops = (s, tr) ->
  (snd (rstep s RWatch) = RNone -> exists x, In (REnd, x) tr) /\ (snd (rstep s RWatch) = RPending -> forall x, ~ In (REnd, x) tr).
Proof.
  intro E. pose proof (ri_over _ _ _ (rinv_run _ _ _ _ E)) as V. unfold endedb in V. cbn [rstep].
  destruct (watch_loop (rm_publishing s) (rm_queue s)) as [found q]. cbn [snd]. destruct found as [[m c]|]; [split; discriminate|].
  destruct (rm_over s); symmetry in V; (split; [|]); try discriminate; intros _.
  - apply existsb_exists in V. destruct V as ([o x] & I & H). destruct o; try discriminate. exists x. exact I.
  - intros x I. assert (X : existsb (fun e => match fst e with REnd => true | _ => false end) tr = true) by (apply existsb_exists; exists (REnd, x); auto).
    rewrite X in V. discriminate.
Qed.
Theorem shown_real path ops s tr n b : rrun (room_new path) ops = (s, tr) ->
  snd (rstep s RWatch) = RFound n b -> exists x, In (RAnnounce (path ++ n) b, x) tr.
Proof.
  intros E W. pose proof (rinv_run _ _ _ _ E) as I. apply watch_out in W. destruct W as [_ W].
  assert (A : In (n, b) (announced path tr)) by (apply (ri_real _ _ _ I), in_app_iff; auto).
  clear - A. induction tr as [|[o x] tr IH]; [destruct A|].
  destruct o as [n' b'|b'|i|p b'| |]; cbn [announced] in A; try (destruct (IH A) as [x' H]; exists x'; right; exact H).
  - destruct (in_room path p) as [m|] eqn:R.
    + destruct A as [[= -> ->]|A]; [apply in_room_spec in R; subst p; exists x; left; reflexivity|]. destruct (IH A) as [x' H]; exists x'; right; exact H.
    + destruct (IH A) as [x' H]; exists x'; right; exact H.
  - destruct A.
Qed.
Theorem publish_at path ops s tr n b : rrun (room_new path) ops = (s, tr) -> snd (rstep s (RPublish n b)) = RAt (path ++ n).
Proof. intro E. pose proof (rinv_run _ _ _ _ E) as I. cbn. rewrite (ri_path _ _ _ I). reflexivity. Qed.

Lemma whole_apart p q n m : whole p -> whole q -> p ++ n = q ++ m -> p = q.
Proof.
  intros (a & -> & A) (b & -> & B) E. f_equal. revert b B E. induction a as [|x a IH]; intros b B E.
  - destruct b as [|y b]; [reflexivity|]. cbn in E. injection E as E _. destruct B. left. auto.
  - destruct b as [|y b].
    + cbn in E. injection E as E _. destruct A. left. auto.
    + cbn in E. injection E as -> E. f_equal. apply IH; [firstorder|firstorder|exact E].
Qed.
