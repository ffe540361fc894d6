(** The pool of sessions. *)
From Coq Require Import NArith Arith List Lia Bool.
From Verif.Model Require Import Base Map FrameSys Pool.
From Verif.Spec Require Import PoolSpec.
From Verif.Proofs Require Import MapP TableP.
Import ListNotations.

Lemma crun_app s a b : crun s (a ++ b) =
  (fst (crun (fst (crun s a)) b), snd (crun s a) ++ snd (crun (fst (crun s a)) b)).
Proof.
  revert s. induction a as [|o a IH]; intro s; cbn [app crun fst snd].
  - destruct (crun s b); reflexivity.
  - destruct (cstep s o) as [s1 x]. rewrite IH. destruct (crun s1 a) as [s2 tr]. reflexivity.
Qed.
Lemma crun_snoc s a o : crun s (a ++ [o]) =
  (fst (cstep (fst (crun s a)) o), snd (crun s a) ++ [(o, snd (cstep (fst (crun s a)) o))]).
Proof. rewrite crun_app. cbn [crun]. destruct (cstep (fst (crun s a)) o). reflexivity. Qed.

Definition at_ (s : pool) (n : nat) (u : bytes) (a : attempt) : Prop := nth_error (pl_tries s) n = Some (u, a).

Record pinv (s : pool) (tr : cevents) : Prop := {
  pi_tried : forall n u, tried tr u n <-> exists a, at_ s n u a;
  pi_up : forall n, came_up tr n <-> exists u a, at_ s n u a /\ (a = Up \/ a = Lost);
  pi_failed : forall n, failed tr n <-> exists u, at_ s n u AttemptFailed;
  pi_lost : forall n, lost tr n <-> exists u, at_ s n u Lost;
  pi_released : forall n, ~ released tr n;
  pi_never : forall n u, ~ at_ s n u Released;
  pi_cache : forall u n, lookup u (pl_cache s) = Some n <-> exists a, at_ s n u a /\ a <> Lost;
  pi_given : length (given tr) = length (pl_handles s);
  pi_handle : forall h n, get (pl_handles s) h = Some n -> nth_error (given tr) h = Some n /\ exists u a, at_ s n u a;
  pi_open : forall h, get (pl_handles s) h = None -> h < length (pl_handles s) -> dropped tr h }.

Lemma pinv_new : pinv pool_new [].
Proof.
  assert (N : forall n u a, ~ at_ pool_new n u a) by (intros [|n] u a A; discriminate A).
  split; unfold tried, came_up, failed, lost, released; cbn [In].
  - intros n u. split; [intros []|intros [a A]; destruct (N _ _ _ A)].
  - intros n. split; [intros []|intros (u & a & A & _); destruct (N _ _ _ A)].
  - intros n. split; [intros []|intros [u A]; destruct (N _ _ _ A)].
  - intros n. split; [intros []|intros [u A]; destruct (N _ _ _ A)].
  - intros n [].
  - intros n u. apply N.
  - intros u n. split; [discriminate|]. intros (a & A & _). destruct (N _ _ _ A).
  - reflexivity.
  - intros [|h] n A; discriminate A.
  - cbn. intros. lia.
Qed.

Lemma in_snoc {A} (x y : A) l : In x (l ++ [y]) <-> In x l \/ y = x.
Proof. rewrite in_app_iff. cbn. intuition. Qed.
Lemma given_snoc tr e : given (tr ++ [e]) = given tr ++ match snd e with CNew n | CShared n => [n] | _ => [] end.
Proof. unfold given. rewrite flat_map_app. cbn [flat_map]. rewrite app_nil_r. reflexivity. Qed.

(** An event that changes nothing. *)
Lemma pinv_same s tr o x : pinv s tr ->
  match x with CUnit | CNew _ | CShared _ => False | _ => True end -> pinv s (tr ++ [(o, x)]).
Proof.
  intros [I1 I2 I3 I4 I5 I6 I7 I8 I9 I10] H.
  split; unfold tried, came_up, failed, lost, released, dropped in *; intros; rewrite ?given_snoc, ?in_snoc; cbn [snd].
  - rewrite <- I1. destruct x; try contradiction; intuition congruence.
  - rewrite <- I2. destruct x; try contradiction; intuition congruence.
  - rewrite <- I3. destruct x; try contradiction; intuition congruence.
  - rewrite <- I4. destruct x; try contradiction; intuition congruence.
  - specialize (I5 n). destruct x; try contradiction; intuition congruence.
  - apply I6.
  - apply I7.
  - destruct x; try contradiction; rewrite app_nil_r; exact I8.
  - destruct (I9 _ _ H0) as [A B]. split; [|exact B]. rewrite nth_error_app1; [exact A|]. apply nth_error_Some. congruence.
  - left. auto.
Qed.

Lemma at_fun s n u a u' a' : at_ s n u a -> at_ s n u' a' -> u = u' /\ a = a'.
Proof. unfold at_. intros. split; congruence. Qed.

Lemma at_set s n u a m v b : n < length (pl_tries s) ->
  at_ (with_try s n u a) m v b <-> (m = n /\ v = u /\ b = a) \/ (m <> n /\ at_ s m v b).
Proof.
  intro Hn. unfold at_, with_try. cbn [pl_tries]. destruct (Nat.eq_dec n m) as [<-|Ne].
  - rewrite nth_error_set_eq by exact Hn. intuition congruence.
  - rewrite nth_error_set_ne by exact Ne. intuition congruence.
Qed.

Lemma at_lt s n u a : at_ s n u a -> n < length (pl_tries s).
Proof. intro H. apply nth_error_Some. unfold at_ in H. congruence. Qed.

Lemma receivers_cached s u n : lookup u (pl_cache s) = Some n -> receivers s n = true.
Proof.
  intro H. unfold receivers. apply orb_true_iff. left. apply existsb_exists. exists (u, n).
  split; [apply lookup_In; exact H|apply Nat.eqb_refl].
Qed.

Lemma pinv_step s tr o s' x : pinv s tr -> cstep s o = (s', x) -> pinv s' (tr ++ [(o, x)]).
Proof.
  intros I. pose proof I as [I1 I2 I3 I4 I5 I6 I7 I8 I9 I10].
  destruct o as [u|h|h|n ok|n|n]; cbn [cstep].
  - destruct (lookup u (pl_cache s)) as [n|] eqn:L; intro E; injection E as <- <-.
    + assert (An : exists a, at_ s n u a) by (destruct (proj1 (I7 u n) L) as (a & A & _); eauto).
      split; unfold tried, came_up, failed, lost, released, dropped in *; intros; rewrite ?given_snoc, ?in_snoc; cbn [snd].
      * unfold at_. cbn [pl_tries]. rewrite I1. unfold at_. intuition congruence.
      * unfold at_. cbn [pl_tries]. rewrite I2. unfold at_. intuition congruence.
      * unfold at_. cbn [pl_tries]. rewrite I3. unfold at_. intuition congruence.
      * unfold at_. cbn [pl_tries]. rewrite I4. unfold at_. intuition congruence.
      * specialize (I5 n0). intuition congruence.
      * apply I6.
      * apply I7.
      * cbn [pl_handles]. rewrite !app_length, I8. reflexivity.
      * cbn [pl_handles] in H. rewrite get_app in H. destruct (Nat.eqb_spec h (length (pl_handles s))) as [->|Ne].
        -- injection H as <-. rewrite nth_error_app2 by lia. rewrite I8, Nat.sub_diag. split; [reflexivity|]. destruct An as [a A]. exists u, a. exact A.
        -- destruct (I9 _ _ H) as [A B]. split; [|exact B]. rewrite nth_error_app1; [exact A|]. apply nth_error_Some. congruence.
      * cbn [pl_handles] in H, H0. rewrite get_app in H. rewrite app_length in H0. cbn in H0.
        destruct (Nat.eqb_spec h (length (pl_handles s))) as [Eh|Ne]; [discriminate|]. left. apply I10; [exact H|lia].
    + set (n := length (pl_tries s)). set (s1 := Pool _ _ _).
      assert (At : forall m v b, at_ s1 m v b <-> (m = n /\ v = u /\ b = Connecting) \/ at_ s m v b).
      { intros m v b. subst s1. unfold at_. cbn [pl_tries]. destruct (Nat.lt_ge_cases m n) as [Hl|Hl].
        - rewrite nth_error_app1 by exact Hl. intuition lia.
        - rewrite nth_error_app2 by exact Hl. fold n. assert (Z : nth_error (pl_tries s) m = None) by (apply nth_error_None; exact Hl). rewrite Z.
          destruct (m - n) as [|k] eqn:D; cbn.
          + split; [intro E; injection E as <- <-; left; repeat split; lia|]. intros [(_ & -> & ->)|]; [reflexivity|discriminate].
          + split; [destruct k; discriminate|]. intros [(-> & _)|]; [lia|discriminate]. }
      assert (Nn : forall v b, ~ at_ s n v b) by (intros v b A; apply at_lt in A; subst n; lia).
      split; unfold tried, came_up, failed, lost, released, dropped in *; intros; rewrite ?given_snoc, ?in_snoc; cbn [snd].
      * rewrite I1. split.
        -- intros [[a A]|E]; [exists a; apply At; auto|]. injection E as -> ->. exists Connecting. apply At. auto.
        -- intros [a A]. apply At in A. destruct A as [(-> & -> & _)|A]; [right; reflexivity|left; eauto].
      * rewrite I2. split.
        -- intros [(v & a & A & B)|E]; [|discriminate]. exists v, a. split; [apply At; auto|exact B].
        -- intros (v & a & A & B). apply At in A. destruct A as [(-> & -> & ->)|A]; [destruct B; discriminate|]. left. eauto.
      * rewrite I3. split.
        -- intros [[v A]|E]; [|discriminate]. exists v. apply At. auto.
        -- intros [v A]. apply At in A. destruct A as [(_ & _ & E)|A]; [discriminate|]. left. eauto.
      * rewrite I4. split.
        -- intros [[v A]|E]; [|discriminate]. exists v. apply At. auto.
        -- intros [v A]. apply At in A. destruct A as [(_ & _ & E)|A]; [discriminate|]. left. eauto.
      * specialize (I5 n0). intuition congruence.
      * intro A. apply At in A. destruct A as [(_ & _ & E)|A]; [discriminate|]. exact (I6 _ _ A).
      * subst s1. cbn [pl_cache lookup]. destruct (str_eqb_spec u0 u) as [->|Ne].
        -- split.
           ++ intro E. injection E as <-. exists Connecting. split; [apply At; auto|discriminate].
           ++ intros (a & A & B). apply At in A. destruct A as [(-> & _ & _)|A]; [reflexivity|].
              assert (C : lookup u (pl_cache s) = Some n0) by (apply I7; eauto). congruence.
        -- rewrite I7. split.
           ++ intros (a & A & B). exists a. split; [apply At; auto|exact B].
           ++ intros (a & A & B). apply At in A. destruct A as [(_ & -> & _)|A]; [congruence|]. eauto.
      * subst s1. cbn [pl_handles]. rewrite !app_length, I8. reflexivity.
      * subst s1. cbn [pl_handles] in H. rewrite get_app in H. destruct (Nat.eqb_spec h (length (pl_handles s))) as [->|Ne].
        -- injection H as <-. rewrite nth_error_app2 by lia. rewrite I8, Nat.sub_diag. split; [reflexivity|]. exists u, Connecting. apply At. auto.
        -- destruct (I9 _ _ H) as [A (v & b & B)]. split; [|exists v, b; apply At; auto]. rewrite nth_error_app1; [exact A|]. apply nth_error_Some. congruence.
      * subst s1. cbn [pl_handles] in H, H0. rewrite get_app in H. rewrite app_length in H0. cbn in H0.
        destruct (Nat.eqb_spec h (length (pl_handles s))) as [Eh|Ne]; [discriminate|]. left. apply I10; [exact H|lia].
  - destruct (get (pl_handles s) h) as [n|]; [|intro E; injection E as <- <-; apply pinv_same; auto].
    destruct (nth_error (pl_tries s) n) as [[u []]|]; intro E; injection E as <- <-; apply pinv_same; auto.
  - destruct (get (pl_handles s) h) as [n|] eqn:G; [|intro E; injection E as <- <-; apply pinv_same; auto].
    intro E; injection E as <- <-.
    split; unfold tried, came_up, failed, lost, released, dropped in *; intros; rewrite ?given_snoc, ?in_snoc; cbn [snd].
    + unfold at_. cbn [pl_tries]. rewrite I1. unfold at_. intuition congruence.
    + unfold at_. cbn [pl_tries]. rewrite I2. unfold at_. intuition congruence.
    + unfold at_. cbn [pl_tries]. rewrite I3. unfold at_. intuition congruence.
    + unfold at_. cbn [pl_tries]. rewrite I4. unfold at_. intuition congruence.
    + specialize (I5 n0). intuition congruence.
    + apply I6.
    + apply I7.
    + cbn [pl_handles]. rewrite set_nth_length, app_nil_r. exact I8.
    + cbn [pl_handles] in H. rewrite app_nil_r. destruct (Nat.eq_dec h h0) as [<-|Ne].
      * rewrite (get_set_eq _ _ _ _ G) in H. discriminate.
      * rewrite get_set_ne in H by exact Ne. exact (I9 _ _ H).
    + cbn [pl_handles] in H, H0. rewrite set_nth_length in H0. destruct (Nat.eq_dec h h0) as [<-|Ne]; [right; reflexivity|].
      rewrite get_set_ne in H by exact Ne. left. auto.
  - destruct (nth_error (pl_tries s) n) as [[u []]|] eqn:N; try (intro E; injection E as <- <-; apply pinv_same; [exact I|exact Logic.I]).
    intro E; injection E as <- <-. pose proof (at_lt s n u Connecting N) as Hn. set (a := if ok then Up else AttemptFailed).
    assert (Un : forall v b, at_ s n v b -> b = Connecting) by (intros v b A; destruct (at_fun _ _ _ _ _ _ N A); congruence).
    split; unfold tried, came_up, failed, lost, released, dropped in *; intros; rewrite ?given_snoc, ?in_snoc; cbn [snd].
    + rewrite I1. split.
      * intros [[b A]|E]; [|discriminate]. destruct (Nat.eq_dec n0 n) as [->|Ne].
        -- exists a. apply at_set; [exact Hn|]. left. destruct (at_fun _ _ _ _ _ _ N A) as [-> _]. auto.
        -- exists b. apply at_set; auto.
      * intros [b A]. apply at_set in A; [|exact Hn]. left. destruct A as [(-> & -> & _)|[_ A]]; [exists Connecting; exact N|eauto].
    + rewrite I2. split.
      * intros [(v & b & A & B)|E].
        -- exists v, b. split; [|exact B]. apply at_set; [exact Hn|]. right. split; [|exact A]. intros ->. apply Un in A. destruct B; congruence.
        -- injection E as -> ->. exists u, Up. split; [apply at_set; auto|auto].
      * intros (v & b & A & B). apply at_set in A; [|exact Hn]. destruct A as [(-> & -> & ->)|[_ A]]; [|left; eauto].
        right. subst a. destruct ok; [reflexivity|]. destruct B; discriminate.
    + rewrite I3. split.
      * intros [[v A]|E].
        -- exists v. apply at_set; [exact Hn|]. right. split; [|exact A]. intros ->. apply Un in A. discriminate.
        -- injection E as -> ->. exists u. apply at_set; auto.
      * intros [v A]. apply at_set in A; [|exact Hn]. destruct A as [(-> & -> & E)|[_ A]]; [|left; eauto].
        right. subst a. destruct ok; [discriminate|reflexivity].
    + rewrite I4. split.
      * intros [[v A]|E]; [|discriminate].
        exists v. apply at_set; [exact Hn|]. right. split; [|exact A]. intros ->. apply Un in A. discriminate.
      * intros [v A]. apply at_set in A; [|exact Hn]. destruct A as [(-> & -> & E)|[_ A]]; [|left; eauto].
        subst a. destruct ok; discriminate.
    + specialize (I5 n0). intuition congruence.
    + intro A. apply at_set in A; [|exact Hn]. destruct A as [(_ & _ & E)|[_ A]]; [subst a; destruct ok; discriminate|]. exact (I6 _ _ A).
    + cbn [pl_cache with_try]. rewrite I7. split.
      * intros (b & A & B). destruct (Nat.eq_dec n0 n) as [->|Ne].
        -- exists a. split; [apply at_set; [exact Hn|]|subst a; destruct ok; discriminate]. left. destruct (at_fun _ _ _ _ _ _ N A) as [-> _]. auto.
        -- exists b. split; [apply at_set; auto|exact B].
      * intros (b & A & B). apply at_set in A; [|exact Hn]. destruct A as [(-> & -> & _)|[_ A]]; [|eauto].
        exists Connecting. split; [exact N|discriminate].
    + cbn [pl_handles with_try]. rewrite app_nil_r. exact I8.
    + cbn [pl_handles with_try] in H. rewrite app_nil_r. destruct (I9 _ _ H) as [A (v & b & B)]. split; [exact A|].
      destruct (Nat.eq_dec n0 n) as [->|Ne]; [exists u, a; apply at_set; auto|exists v, b; apply at_set; auto].
    + left. auto.
  - destruct (nth_error (pl_tries s) n) as [[u []]|] eqn:N; try (intro E; injection E as <- <-; apply pinv_same; [exact I|exact Logic.I]).
    cbv zeta. intro E; injection E as <- <-.
    pose proof (at_lt s n u Up N) as Hn.
    assert (Un : forall v b, at_ s n v b -> b = Up) by (intros v b A; destruct (at_fun _ _ _ _ _ _ N A); congruence).
    set (s1 := Pool _ _ _).
    assert (At : forall m v b, at_ s1 m v b <-> (m = n /\ v = u /\ b = Lost) \/ (m <> n /\ at_ s m v b)) by (intros; apply at_set; exact Hn).
    split; unfold tried, came_up, failed, lost, released, dropped in *; intros; rewrite ?given_snoc, ?in_snoc; cbn [snd].
    + rewrite I1. split.
      * intros [[b A]|E]; [|discriminate]. destruct (Nat.eq_dec n0 n) as [->|Ne].
        -- exists Lost. apply At. left. destruct (at_fun _ _ _ _ _ _ N A) as [-> _]. auto.
        -- exists b. apply At; auto.
      * intros [b A]. apply At in A. left. destruct A as [(-> & -> & _)|[_ A]]; [exists Up; exact N|eauto].
    + rewrite I2. split.
      * intros [(v & b & A & B)|E]; [|discriminate]. destruct (Nat.eq_dec n0 n) as [->|Ne].
        -- exists u, Lost. split; [apply At; auto|auto].
        -- exists v, b. split; [apply At; auto|exact B].
      * intros (v & b & A & B). apply At in A. left. destruct A as [(-> & -> & _)|[_ A]]; [exists u, Up; auto|eauto].
    + rewrite I3. split.
      * intros [[v A]|E]; [|discriminate].
        exists v. apply At. right. split; [|exact A]. intros ->. apply Un in A. discriminate.
      * intros [v A]. apply At in A. destruct A as [(-> & -> & E)|[_ A]]; [discriminate|left; eauto].
    + rewrite I4. split.
      * intros [[v A]|E].
        -- exists v. apply At. right. split; [|exact A]. intros ->. apply Un in A. discriminate.
        -- injection E as ->. exists u. apply At. auto.
      * intros [v A]. apply At in A. destruct A as [(-> & -> & E)|[_ A]]; [right; reflexivity|left; eauto].
    + specialize (I5 n0). intuition congruence.
    + intro A. apply At in A. destruct A as [(_ & _ & E)|[_ A]]; [discriminate|]. exact (I6 _ _ A).
    + subst s1. cbn [pl_cache with_try]. rewrite lookup_remove. destruct (str_eqb_spec u0 u) as [->|Ne].
      * split; [discriminate|]. intros (b & A & B). apply At in A. destruct A as [(-> & _ & ->)|[Ne A]]; [congruence|].
        assert (C1 : lookup u (pl_cache s) = Some n0) by (apply I7; eauto).
        assert (C2 : lookup u (pl_cache s) = Some n) by (apply I7; exists Up; split; [exact N|discriminate]). congruence.
      * rewrite I7. split.
        -- intros (b & A & B). exists b. split; [|exact B]. apply At. right. split; [|exact A]. intros ->. destruct (at_fun _ _ _ _ _ _ N A). congruence.
        -- intros (b & A & B). apply At in A. destruct A as [(-> & -> & _)|[_ A]]; [congruence|eauto].
    + subst s1. cbn [pl_handles with_try]. rewrite app_nil_r. exact I8.
    + subst s1. cbn [pl_handles with_try] in H. rewrite app_nil_r. destruct (I9 _ _ H) as [A (v & b & B)]. split; [exact A|].
      destruct (Nat.eq_dec n0 n) as [->|Ne]; [exists u, Lost; apply At; auto|exists v, b; apply At; auto].
    + left. auto.
  - destruct (nth_error (pl_tries s) n) as [[u []]|] eqn:N; try (intro E; injection E as <- <-; apply pinv_same; [exact I|exact Logic.I]).
    assert (C : lookup u (pl_cache s) = Some n) by (apply I7; exists Up; split; [exact N|discriminate]).
    rewrite (receivers_cached _ _ _ C). intro E; injection E as <- <-; apply pinv_same; auto.
Qed.

Lemma pinv_run ops : pinv (fst (crun pool_new ops)) (snd (crun pool_new ops)).
Proof.
  induction ops as [|o ops IH] using rev_ind; [exact pinv_new|].
  rewrite crun_snoc. cbn [fst snd]. eapply pinv_step; [exact IH|apply surjective_pairing].
Qed.

(** ** Consequences *)
Theorem connect_shared ops s tr u n : crun pool_new ops = (s, tr) -> tried tr u n -> ~ lost tr n ->
  snd (cstep s (CConnect u)) = CShared n.
Proof.
  intros E T L. pose proof (pinv_run ops) as I. rewrite E in I. cbn [fst snd] in I.
  apply (pi_tried _ _ I) in T. destruct T as [a A].
  assert (C : lookup u (pl_cache s) = Some n).
  { apply (pi_cache _ _ I). exists a. split; [exact A|]. intros ->. apply L. apply (pi_lost _ _ I). eauto. }
  cbn [cstep]. rewrite C. reflexivity.
Qed.
Theorem connect_new ops s tr u : crun pool_new ops = (s, tr) -> (forall n, tried tr u n -> lost tr n) ->
  exists n, snd (cstep s (CConnect u)) = CNew n /\ forall v, ~ tried tr v n.
Proof.
  intros E H. pose proof (pinv_run ops) as I. rewrite E in I. cbn [fst snd] in I.
  cbn [cstep]. destruct (lookup u (pl_cache s)) as [n|] eqn:L.
  - exfalso. apply (pi_cache _ _ I) in L. destruct L as (a & A & B).
    assert (T : tried tr u n) by (apply (pi_tried _ _ I); eauto). apply H in T. apply (pi_lost _ _ I) in T.
    destruct T as [v V]. destruct (at_fun _ _ _ _ _ _ A V). congruence.
  - eexists. split; [reflexivity|]. intros v T. apply (pi_tried _ _ I) in T. destruct T as [a A]. apply at_lt in A. lia.
Qed.
Theorem poll_result ops s tr h n : crun pool_new ops = (s, tr) -> nth_error (given tr) h = Some n ->
  match snd (cstep s (CPoll h)) with
  | CPending => ~ came_up tr n /\ ~ failed tr n
  | CSession m => m = n /\ came_up tr n
  | CError m => m = n /\ failed tr n
  | CBad => dropped tr h
  | _ => False
  end.
Proof.
  intros E G. pose proof (pinv_run ops) as I. rewrite E in I. cbn [fst snd] in I.
  cbn [cstep]. destruct (get (pl_handles s) h) as [m|] eqn:Hh.
  2:{ cbn. apply (pi_open _ _ I); [exact Hh|]. rewrite <- (pi_given _ _ I). apply nth_error_Some. congruence. }
  destruct (pi_handle _ _ I _ _ Hh) as [A (u & a & B)]. assert (m = n) by congruence. subst m.
  unfold at_ in B. rewrite B. destruct a; cbn.
  - rewrite (pi_up _ _ I), (pi_failed _ _ I). split.
    + intros (v & b & V & W). destruct (at_fun _ _ _ _ _ _ B V). destruct W; congruence.
    + intros (v & V). destruct (at_fun _ _ _ _ _ _ B V). congruence.
  - split; [reflexivity|]. apply (pi_up _ _ I). exists u, Up. auto.
  - split; [reflexivity|]. apply (pi_failed _ _ I). exists u. auto.
  - split; [reflexivity|]. apply (pi_up _ _ I). exists u, Lost. auto.
  - destruct (pi_never _ _ I _ _ B).
Qed.
Theorem one_alive ops s tr u n m : crun pool_new ops = (s, tr) -> tried tr u n -> tried tr u m ->
  ~ lost tr n -> ~ lost tr m -> n = m.
Proof.
  intros E A B C D. pose proof (connect_shared _ _ _ _ _ E A C) as H. pose proof (connect_shared _ _ _ _ _ E B D). congruence.
Qed.
Theorem tried_once ops s tr u v n : crun pool_new ops = (s, tr) -> tried tr u n -> tried tr v n -> u = v.
Proof.
  intros E A B. pose proof (pinv_run ops) as I. rewrite E in I. cbn [fst snd] in I.
  apply (pi_tried _ _ I) in A, B. destruct A as [a A], B as [b B]. apply (at_fun _ _ _ _ _ _ A B).
Qed.

(** A failure stays. *)
Theorem failed_not_lost ops s tr n : crun pool_new ops = (s, tr) -> failed tr n -> ~ lost tr n.
Proof.
  intros E F L. pose proof (pinv_run ops) as I. rewrite E in I. cbn [fst snd] in I.
  apply (pi_failed _ _ I) in F. apply (pi_lost _ _ I) in L. destruct F as [u F], L as [v L].
  destruct (at_fun _ _ _ _ _ _ F L). discriminate.
Qed.
Theorem failure_forever ops more u n : tried (snd (crun pool_new ops)) u n -> failed (snd (crun pool_new ops)) n ->
  snd (cstep (fst (crun pool_new (ops ++ more))) (CConnect u)) = CShared n.
Proof.
  intros T F. destruct (crun pool_new (ops ++ more)) as [s tr] eqn:E. cbn [fst].
  assert (P : forall e, In e (snd (crun pool_new ops)) -> In e tr).
  { intros e He. rewrite crun_app in E. injection E as _ <-. apply in_or_app. auto. }
  eapply connect_shared; [exact E|apply P; exact T|]. eapply failed_not_lost; [exact E|]. apply P. exact F.
Qed.
Theorem never_released ops n : ~ released (snd (crun pool_new ops)) n.
Proof. apply (pi_released _ _ (pinv_run ops)). Qed.
