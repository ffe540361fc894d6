(** Lists with replacement and handle tables. *)
From Coq Require Import NArith ZArith List Lia Bool.
From Verif.Model Require Import Base FrameSys.
Import ListNotations.
Open Scope nat_scope.

Section SetNth.
  Context {A : Type}.
  Implicit Types (l : list A) (n m : nat).

  Lemma set_nth_length n x l : length (set_nth n x l) = length l.
  Proof. revert n; induction l; intros [|n]; cbn; auto. Qed.

  Lemma nth_error_set_eq n x l : n < length l -> nth_error (set_nth n x l) n = Some x.
  Proof. revert n; induction l; intros [|n] H; cbn in *; try lia; auto. apply IHl; lia. Qed.

  Lemma nth_error_set_ne n m x l : n <> m -> nth_error (set_nth n x l) m = nth_error l m.
  Proof.
    revert n m; induction l; intros [|n] [|m] H; cbn; auto; try congruence.
  Qed.

  Lemma nth_set_eq n x l d : n < length l -> nth n (set_nth n x l) d = x.
  Proof. intros H. apply nth_error_nth. apply nth_error_set_eq; auto. Qed.

  Lemma nth_set_ne n m x l d : n <> m -> nth m (set_nth n x l) d = nth m l d.
  Proof. revert n m; induction l; intros [|n] [|m] H; cbn; auto; try congruence. Qed.

  Lemma set_nth_split n x l y :
    nth_error l n = Some y -> exists a b, l = a ++ y :: b /\ set_nth n x l = a ++ x :: b /\ length a = n.
  Proof.
    revert n; induction l; intros [|n] H; cbn in *; try discriminate.
    - injection H as ->. exists [], l. auto.
    - destruct (IHl _ H) as (p & q & E1 & E2 & E3). exists (a :: p), q. cbn. subst l. rewrite E2. auto.
  Qed.
End SetNth.

Section Table.
  Context {A : Type}.
  Implicit Types (t : table A).

  Lemma get_Some t h a : get t h = Some a <-> nth_error t h = Some (Some a).
  Proof. unfold get. destruct (nth_error t h) as [[|]|]; split; congruence. Qed.

  Lemma get_lt t h a : get t h = Some a -> h < length t.
  Proof. rewrite get_Some. intros H. apply nth_error_Some. congruence. Qed.

  Lemma get_set_eq t h a x : get t h = Some a -> get (set_nth h x t) h = x.
  Proof. intros H. unfold get. rewrite nth_error_set_eq by (eapply get_lt; eauto). destruct x; auto. Qed.

  Lemma get_set_ne t h k x : h <> k -> get (set_nth h x t) k = get t k.
  Proof. intros H. unfold get. rewrite nth_error_set_ne; auto. Qed.

  Lemma get_app t x h :
    get (t ++ [x]) h = if Nat.eqb h (length t) then x else get t h.
  Proof.
    unfold get. destruct (Nat.eqb_spec h (length t)) as [->|N].
    - rewrite nth_error_app2 by lia. rewrite Nat.sub_diag. cbn. destruct x; auto.
    - destruct (Nat.lt_ge_cases h (length t)).
      + rewrite nth_error_app1 by lia. auto.
      + rewrite nth_error_app2 by lia. rewrite (proj2 (nth_error_None t h)) by lia.
        destruct (h - length t) as [|k] eqn:E; [lia|]. cbn. destruct k; auto.
  Qed.

  Fixpoint count t : nat := match t with [] => 0 | Some _ :: t => S (count t) | None :: t => count t end.

  Lemma live_count t : live t = negb (Nat.eqb (count t) 0).
  Proof. induction t as [|[]]; cbn; auto. Qed.

  Lemma count_app t u : count (t ++ u) = count t + count u.
  Proof. induction t as [|[]]; cbn; auto. Qed.

  Lemma count_kill t h a : get t h = Some a -> S (count (set_nth h None t)) = count t.
  Proof.
    rewrite get_Some. intros H. destruct (set_nth_split _ None _ _ H) as (p & q & -> & -> & _).
    rewrite !count_app. cbn. lia.
  Qed.

  Lemma count_update t h a b : get t h = Some a -> count (set_nth h (Some b) t) = count t.
  Proof.
    rewrite get_Some. intros H. destruct (set_nth_split _ (Some b) _ _ H) as (p & q & -> & -> & _).
    rewrite !count_app. cbn. lia.
  Qed.

  Lemma live_false_get t h : live t = false -> get t h = None.
  Proof.
    intros H. destruct (get t h) eqn:E; auto. apply get_Some in E. apply nth_error_In in E.
    unfold live in H. assert (existsb (fun x => match x with Some _ => true | None => false end) t = true)
      by (apply existsb_exists; exists (Some a); auto). congruence.
  Qed.
End Table.

Lemma Forall2_nth_error {A B} (R : A -> B -> Prop) l m n a b :
  Forall2 R l m -> nth_error l n = Some a -> nth_error m n = Some b -> R a b.
Proof. intros H; revert n; induction H; intros [|n] Ha Hb; cbn in *; try congruence. eauto. Qed.

Lemma Forall2_set {A B} (R : A -> B -> Prop) l m n a b :
  Forall2 R l m -> R a b -> Forall2 R (set_nth n a l) (set_nth n b m).
Proof. intros H; revert n; induction H; intros [|n] Hr; cbn; auto. Qed.

Lemma Forall2_set_l {A B} (R : A -> B -> Prop) l m n a b :
  Forall2 R l m -> nth_error m n = Some b -> R a b -> Forall2 R (set_nth n a l) m.
Proof. intros H; revert n; induction H; intros [|n] Hn Hr; cbn in *; try congruence; auto.
  injection Hn as ->. auto. Qed.

Lemma set_nth_same {A} n (x : A) l : nth_error l n = Some x -> set_nth n x l = l.
Proof. revert n; induction l; intros [|n] H; cbn in *; try congruence. f_equal; auto. Qed.

Lemma Forall2_impl {A B} (R S : A -> B -> Prop) l m :
  (forall a b, R a b -> S a b) -> Forall2 R l m -> Forall2 S l m.
Proof. intros H. induction 1; auto. Qed.
