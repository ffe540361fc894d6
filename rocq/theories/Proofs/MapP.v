From Coq Require Import NArith List Bool Lia.
From Coq Require Import Init.Byte Strings.Byte.
From Verif.Model Require Import Base Map.
Import ListNotations.

Lemma str_eqb_spec a b : reflect (a = b) (str_eqb a b).
Proof.
  revert b; induction a as [|x a]; intros [|y b]; cbn; try (constructor; congruence).
  destruct (Byte.eqb x y) eqn:E.
  - apply Byte.byte_dec_bl in E. subst. destruct (IHa b); constructor; congruence.
  - constructor. intros H. injection H as -> _. rewrite (Byte.byte_dec_lb (x:=y) (y:=y) eq_refl) in E. discriminate.
Qed.
Lemma str_eqb_refl a : str_eqb a a = true.
Proof. destruct (str_eqb_spec a a); auto. Qed.
Lemma str_eqb_sym a b : str_eqb a b = str_eqb b a.
Proof. destruct (str_eqb_spec a b), (str_eqb_spec b a); congruence. Qed.

Section Map.
  Context {V : Type}.
  Implicit Types m : map_of V.
  Lemma lookup_remove k k' m : lookup k (remove k' m) = if str_eqb k k' then None else lookup k m.
  Proof.
    induction m as [|[k2 v] m]; cbn; [destruct (str_eqb k k'); auto|].
    destruct (str_eqb_spec k' k2) as [->|N]; cbn.
    - rewrite IHm. destruct (str_eqb k k2); auto.
    - destruct (str_eqb_spec k k2) as [->|N2].
      + destruct (str_eqb_spec k2 k'); congruence.
      + rewrite IHm. auto.
  Qed.
  Lemma lookup_put k k' v m : lookup k (put k' v m) = if str_eqb k k' then Some v else lookup k m.
  Proof. unfold put. cbn. rewrite lookup_remove. destruct (str_eqb k k'); auto. Qed.
  Lemma lookup_In k v m : lookup k m = Some v -> In (k, v) m.
  Proof.
    induction m as [|[k2 v2] m]; cbn; try discriminate.
    destruct (str_eqb_spec k k2) as [->|]; [intros [= ->]; auto|auto].
  Qed.
  Lemma In_remove k x m : In x (remove k m) -> In x m /\ fst x <> k.
  Proof.
    induction m as [|[k2 v2] m]; cbn; [tauto|]. destruct (str_eqb_spec k k2) as [->|N]; cbn.
    - tauto.
    - intros [<-|H]; cbn; [split; auto; congruence|]. apply IHm in H. tauto.
  Qed.
  Lemma NoDup_remove k m : NoDup (map fst m) -> NoDup (map fst (remove k m)).
  Proof.
    induction m as [|[k2 v2] m]; cbn; auto. intros H. inversion H; subst. destruct (str_eqb k k2); auto.
    cbn. constructor; auto. intros K. apply in_map_iff in K as (x & Hx & K). apply In_remove in K as [K _].
    apply H2. apply in_map_iff. eauto.
  Qed.
  Lemma NoDup_put k v m : NoDup (map fst m) -> NoDup (map fst (put k v m)).
  Proof.
    intros H. cbn. constructor; [|apply NoDup_remove; auto].
    intros K. apply in_map_iff in K as (x & Hx & K). apply In_remove in K as [_ K]. auto.
  Qed.
  Lemma In_lookup k v m : NoDup (map fst m) -> In (k, v) m -> lookup k m = Some v.
  Proof.
    induction m as [|[k2 v2] m]; cbn; [tauto|]. intros H [E|K]; inversion H; subst.
    - injection E as -> ->. rewrite str_eqb_refl. auto.
    - destruct (str_eqb_spec k k2) as [->|]; auto.
      exfalso. apply H2. apply in_map_iff. exists (k2, v). auto.
  Qed.
End Map.
