From Coq Require Import Arith List Bool Lia.
From Verif.Model Require Import JsSignals.
From Verif.Spec Require Import JsSignalsSpec.
Import ListNotations.

Lemma set_nth l : forall k n j, nth_error (set_cur l k n) j = if k =? j then match nth_error l j with Some (f, _) => Some (f, n) | None => None end else nth_error l j.
Proof. induction l as [|[f c] l IH]; intros [|k] n [|j]; cbn; auto; destruct (k =? j); auto. Qed.
Lemma set_len l : forall k n, length (set_cur l k n) = length l.
Proof. induction l as [|[f c] l IH]; intros [|k] n; cbn; auto. Qed.
Lemma in_firsts l n : In n (firsts l) <-> exists c, In (Some n, c) l.
Proof.
  unfold firsts. rewrite in_flat_map. split.
  - intros ([f c] & H & K). destruct f as [m|]; cbn in K; [|destruct K]. destruct K as [->|[]]. exists c. exact H.
  - intros [c H]. exists (Some n, c). split; [exact H|cbn; auto].
Qed.

Definition isrun (c : option nat * nat) (n : nat) : Prop := snd c = n \/ fst c = Some n.
Record Inv (s : root) (l : slog) : Prop := {
  v_got : forall k n, In (EGot k n) l -> n < r_next s /\ k < length (r_comps s);
  v_free : forall n, In (EFree n) l -> n < r_next s;
  v_one : forall k j n, In (EGot k n) l -> In (EGot j n) l -> k = j;
  v_run : forall k c n, nth_error (r_comps s) k = Some c -> isrun c n -> In (EGot k n) l;
  v_held : r_closed s = false -> forall k n, held l k n <-> exists c, nth_error (r_comps s) k = Some c /\ isrun c n;
  v_last : forall k c, nth_error (r_comps s) k = Some c -> last_run l k (snd c);
  v_first : forall k n c, nth_error (r_comps s) k = Some (Some n, c) -> first_run l k n /\ n <> c;
  v_memo : forall k, In (EMemo k) l <-> exists n c, nth_error (r_comps s) k = Some (Some n, c);
  v_closed : In EClosed l <-> r_closed s = true;
  v_none : r_closed s = true -> forall k n, ~ held l k n }.

Lemma last_old l m k n : last_run l k n -> (forall j, ~ In (EGot k j) m) -> last_run (l ++ m) k n.
Proof. intros (a & b & -> & H) N. exists a, (b ++ m). rewrite <- app_assoc. split; [reflexivity|]. intros j K. apply in_app_iff in K. destruct K as [K|K]; [apply (H j K)|apply (N j K)]. Qed.
Lemma first_old l m k n : first_run l k n -> first_run (l ++ m) k n.
Proof. intros (a & b & -> & H). exists a, (b ++ m). rewrite <- app_assoc. auto. Qed.

Lemma nth_snoc {A} (l : list A) x k c : nth_error (l ++ [x]) k = Some c <-> nth_error l k = Some c \/ (k = length l /\ c = x).
Proof.
  destruct (Nat.lt_ge_cases k (length l)) as [H|H].
  - rewrite nth_error_app1 by exact H. split; [auto|intros [K|[K _]]; [exact K|lia]].
  - rewrite nth_error_app2 by exact H. pose proof (proj2 (nth_error_None l k) H) as N. rewrite N. destruct (k - length l) as [|[|i]] eqn:E; cbn.
    + split; [intros K; injection K as <-; right; split; [lia|reflexivity]|intros [K|[_ ->]]; [discriminate|reflexivity]].
    + split; [discriminate|intros [K|[K _]]; [discriminate|lia]].
    + split; [discriminate|intros [K|[K _]]; [discriminate|lia]].
Qed.
Lemma nth_lt {A} (l : list A) k c : nth_error l k = Some c -> k < length l.
Proof. intros H. apply nth_error_Some. congruence. Qed.

Ltac inx := repeat match goal with
  | H : In _ (_ ++ _) |- _ => apply in_app_iff in H; destruct H as [H|H]
  | H : In _ (_ :: _) |- _ => destruct H as [H|H]
  | H : In _ [] |- _ => destruct H
  | H : EGot _ _ = EGot _ _ |- _ => inversion H; clear H; subst
  | H : EFree _ = EFree _ |- _ => inversion H; clear H; subst
  | H : EMemo _ = EMemo _ |- _ => inversion H; clear H; subst
  | H : _ = _ |- _ => discriminate H
  end.

Lemma step_effect s l : r_closed s = false -> Inv s l -> Inv (fst (s_step s SEffect)) (l ++ snd (s_step s SEffect)).
Proof.
  intros C [G F O R Hd La Fi Me Cl No]. unfold s_step. rewrite C. cbn [fst snd].
  assert (NG : forall k, ~ In (EGot k (r_next s)) l) by (intros k H; apply G in H; lia).
  assert (NK : forall n, ~ In (EGot (length (r_comps s)) n) l) by (intros n H; apply G in H; lia).
  split; cbn [r_comps r_next r_closed].
  - intros k n H. rewrite app_length. cbn. inx; [apply G in H; lia|lia].
  - intros n H. inx. apply F in H. lia.
  - intros k j n H K. inx; eauto; exfalso; match goal with X : In (EGot _ _) l |- _ => apply G in X; lia end.
  - intros k c n H K. apply nth_snoc in H. apply in_app_iff. destruct H as [H|[-> ->]]; [left; eapply R; eassumption|]. right. destruct K as [K|K]; cbn in K; [subst; cbn; auto|discriminate].
  - intros _ k n. unfold held. split.
    + intros [H N]. inx.
      * destruct (proj1 (Hd C k n)) as (c & K & K2); [split; [exact H|intros X; apply N, in_app_iff; auto]|]. exists c. rewrite nth_snoc. auto.
      * exists (None, (r_next s)). rewrite nth_snoc. split; [auto|left; reflexivity].
    + intros (c & H & K). apply nth_snoc in H. destruct H as [H|[-> ->]].
      * destruct (proj2 (Hd C k n)) as [H1 H2]; [eauto|]. split; [apply in_app_iff; auto|]. intros X. inx. auto.
      * destruct K as [K|K]; cbn in K; [subst n|discriminate]. split; [apply in_app_iff; cbn; auto|]. intros X. inx. apply F in X. lia.
  - intros k c H. apply nth_snoc in H. destruct H as [H|[-> ->]].
    + apply last_old; [apply La, H|]. intros j K. inx. apply nth_lt in H. lia.
    + exists (l ++ [EEffect (length (r_comps s))]), []. rewrite <- app_assoc. split; [reflexivity|auto].
  - intros k n c H. apply nth_snoc in H. destruct H as [H|[_ H]]; [|discriminate]. split; [apply first_old|]; apply (Fi _ _ _ H).
  - intros k. rewrite in_app_iff, Me. split.
    + intros [(n & c & H)|H]; [exists n, c; apply nth_snoc; auto|]. inx.
    + intros (n & c & H). apply nth_snoc in H. destruct H as [H|[_ H]]; [eauto|discriminate].
  - rewrite in_app_iff, Cl, C. split; [intros [H|H]; [exact H|inx]|discriminate].
  - discriminate.
Qed.
Lemma step_memo s l : r_closed s = false -> Inv s l -> Inv (fst (s_step s SMemo)) (l ++ snd (s_step s SMemo)).
Proof.
  intros C [G F O R Hd La Fi Me Cl No]. unfold s_step. rewrite C. cbn [fst snd].
  assert (NG : forall k, ~ In (EGot k (r_next s)) l) by (intros k H; apply G in H; lia).
  assert (NG' : forall k, ~ In (EGot k (S (r_next s))) l) by (intros k H; apply G in H; lia).
  assert (NK : forall n, ~ In (EGot (length (r_comps s)) n) l) by (intros n H; apply G in H; lia).
  split; cbn [r_comps r_next r_closed].
  - intros k n H. rewrite app_length. cbn. inx; [apply G in H; lia|lia|lia].
  - intros n H. inx. apply F in H. lia.
  - intros k j n H K. inx; eauto; exfalso; first [match goal with X : In (EGot _ _) l |- _ => apply G in X; lia end|lia].
  - intros k c n H K. apply nth_snoc in H. apply in_app_iff. destruct H as [H|[-> ->]]; [left; eapply R; eassumption|]. right. destruct K as [K|K]; cbn in K; [subst; cbn; auto|injection K as <-; cbn; auto].
  - intros _ k n. unfold held. split.
    + intros [H N]. inx.
      * destruct (proj1 (Hd C k n)) as (c & K & K2); [split; [exact H|intros X; apply N, in_app_iff; auto]|]. exists c. rewrite nth_snoc. auto.
      * exists (Some (r_next s), S (r_next s)). rewrite nth_snoc. split; [auto|right; reflexivity].
      * exists (Some (r_next s), S (r_next s)). rewrite nth_snoc. split; [auto|left; reflexivity].
    + intros (c & H & K). apply nth_snoc in H. destruct H as [H|[-> ->]].
      * destruct (proj2 (Hd C k n)) as [H1 H2]; [eauto|]. split; [apply in_app_iff; auto|]. intros X. inx. auto.
      * assert (Y : n = (r_next s) \/ n = S (r_next s)) by (destruct K as [K|K]; cbn in K; [auto|injection K as ->; auto]).
        split; [apply in_app_iff; destruct Y; subst; cbn; auto|]. intros X. inx. apply F in X. lia.
  - intros k c H. apply nth_snoc in H. destruct H as [H|[-> ->]].
    + apply last_old; [apply La, H|]. intros j K. inx; apply nth_lt in H; lia.
    + exists (l ++ [EMemo (length (r_comps s)); EGot (length (r_comps s)) (r_next s)]), []. rewrite <- app_assoc. split; [reflexivity|auto].
  - intros k n c H. apply nth_snoc in H. destruct H as [H|[-> H]]; [split; [apply first_old|]; apply (Fi _ _ _ H)|]. injection H as -> ->.
    split; [|lia]. exists (l ++ [EMemo (length (r_comps s))]), [EGot (length (r_comps s)) (S (r_next s))]. rewrite <- app_assoc. split; [reflexivity|]. intros m X. inx. eapply NK, X.
  - intros k. rewrite in_app_iff, Me. split.
    + intros [(n & c & H)|H]; [exists n, c; apply nth_snoc; auto|]. inx. exists (r_next s), (S (r_next s)). apply nth_snoc. auto.
    + intros (n & c & H). apply nth_snoc in H. destruct H as [H|[-> _]]; [eauto|cbn; auto].
  - rewrite in_app_iff, Cl, C. split; [intros [H|H]; [exact H|inx]|discriminate].
  - discriminate.
Qed.
Lemma step_change s l k0 : r_closed s = false -> Inv s l -> Inv (fst (s_step s (SChange k0))) (l ++ snd (s_step s (SChange k0))).
Proof.
  intros C I. pose proof I as [G F O R Hd La Fi Me Cl No]. unfold s_step. rewrite C.
  destruct (nth_error (r_comps s) k0) as [[f0 c0]|] eqn:E; cbn [fst snd]; [|rewrite app_nil_r; exact I].
  assert (NG : forall k, ~ In (EGot k (r_next s)) l) by (intros k H; apply G in H; lia).
  assert (K0 : In (EGot k0 c0) l) by (eapply R; [exact E|left; reflexivity]).
  assert (B0 : c0 < (r_next s) /\ k0 < length (r_comps s)) by (apply (G _ _ K0)).
  split; cbn [r_comps r_next r_closed].
  - intros k n H. rewrite set_len. inx; [apply G in H; lia|lia].
  - intros n H. inx; [apply F in H; lia|lia].
  - intros k j n H K. inx; eauto; exfalso; match goal with X : In (EGot _ _) l |- _ => apply G in X; lia end.
  - intros k c n H K. rewrite set_nth in H. apply in_app_iff. destruct (Nat.eqb_spec k0 k) as [<-|N]; [|left; eapply R; eassumption].
    rewrite E in H. injection H as <-. destruct K as [K|K]; cbn in K; [subst n; right; cbn; auto|]. left. eapply R; [exact E|right; exact K].
  - intros _ k n. unfold held. split.
    + intros [H N]. inx.
      * destruct (proj1 (Hd C k n)) as (c & K & K2); [split; [exact H|intros X; apply N, in_app_iff; auto]|].
        destruct (Nat.eqb_spec k0 k) as [<-|N'].
        -- rewrite E in K. injection K as <-. exists (f0, (r_next s)). rewrite set_nth, Nat.eqb_refl, E. split; [reflexivity|]. destruct K2 as [K2|K2]; cbn in K2; [|right; exact K2].
           subst n. exfalso. apply N, in_app_iff. cbn. auto.
        -- exists c. rewrite set_nth. apply Nat.eqb_neq in N'. rewrite N'. auto.
      * exists (f0, (r_next s)). rewrite set_nth, Nat.eqb_refl, E. split; [reflexivity|left; reflexivity].
    + intros (c & H & K). rewrite set_nth in H. destruct (Nat.eqb_spec k0 k) as [<-|N'].
      * rewrite E in H. injection H as <-. destruct K as [K|K]; cbn in K.
        -- subst n. split; [apply in_app_iff; cbn; auto|]. intros X. inx; [apply F in X; lia|lia].
        -- subst f0. destruct (proj2 (Hd C k0 n)) as [H1 H2]; [exists (Some n, c0); split; [exact E|right; reflexivity]|].
           split; [apply in_app_iff; auto|]. intros X. inx; [auto|]. destruct (Fi _ _ _ E) as [_ X]. apply X. reflexivity.
      * destruct (proj2 (Hd C k n)) as [H1 H2]; [eauto|]. split; [apply in_app_iff; auto|]. intros X. inx; [auto|]. apply N'. eapply O; [exact K0|exact H1].
  - intros k c H. rewrite set_nth in H. destruct (Nat.eqb_spec k0 k) as [<-|N'].
    + rewrite E in H. injection H as <-. exists (l ++ [EFree c0]), []. rewrite <- app_assoc. split; [reflexivity|auto].
    + apply last_old; [apply La, H|]. intros j X. inx. apply N'. reflexivity.
  - intros k n c H. rewrite set_nth in H. destruct (Nat.eqb_spec k0 k) as [<-|N'].
    + rewrite E in H. injection H as H1 H2. subst f0. destruct (Fi _ _ _ E) as [X1 X2]. split; [apply first_old, X1|]. intros X. apply (NG k0). rewrite H2, <- X. eapply R; [exact E|right; reflexivity].
    + split; [apply first_old|]; apply (Fi _ _ _ H).
  - intros k. rewrite in_app_iff, Me. split.
    + intros [(n & c & H)|H]; [|inx]. destruct (Nat.eqb_spec k0 k) as [<-|N']; [rewrite E in H; injection H as -> ->; exists n, (r_next s); rewrite set_nth, Nat.eqb_refl, E; reflexivity|].
      exists n, c. rewrite set_nth. apply Nat.eqb_neq in N'. rewrite N'. exact H.
    + intros (n & c & H). left. rewrite set_nth in H. destruct (Nat.eqb_spec k0 k) as [<-|N']; [rewrite E in H; injection H as -> _; eauto|eauto].
  - rewrite in_app_iff, Cl, C. split; [intros [H|H]; [exact H|inx]|discriminate].
  - discriminate.
Qed.
Lemma step_close s l : r_closed s = false -> Inv s l -> Inv (fst (s_step s SClose)) (l ++ snd (s_step s SClose)).
Proof.
  intros C [G F O R Hd La Fi Me Cl No]. unfold s_step. rewrite C. cbn [fst snd]. set (fr := map EFree (map snd (r_comps s)) ++ map EFree (firsts (r_comps s))).
  assert (X : forall e, In e (EClosed :: fr) -> e = EClosed \/ exists n, e = EFree n /\ exists k c, nth_error (r_comps s) k = Some c /\ isrun c n).
  { intros e [H|H]; [auto|]. right. unfold fr in H. apply in_app_iff in H. destruct H as [H|H]; apply in_map_iff in H; destruct H as (n & <- & H); exists n; (split; [reflexivity|]).
    - apply in_map_iff in H. destruct H as (c & <- & H). apply In_nth_error in H. destruct H as [k H]. exists k, c. split; [exact H|left; reflexivity].
    - apply in_firsts in H. destruct H as [c H]. apply In_nth_error in H. destruct H as [k H]. exists k, (Some n, c). split; [exact H|right; reflexivity]. }
  assert (Y : forall k c n, nth_error (r_comps s) k = Some c -> isrun c n -> In (EFree n) fr).
  { intros k c n H K. apply nth_error_In in H. unfold fr. apply in_app_iff. destruct K as [K|K]; [left|right]; apply in_map.
    - subst n. apply in_map, H.
    - apply in_firsts. exists (snd c). rewrite <- K. destruct c; exact H. }
  assert (Z : forall k n, ~ In (EGot k n) (EClosed :: fr)) by (intros k n H; apply X in H; destruct H as [H|(m & H & _)]; discriminate).
  assert (W : forall k n, In (EGot k n) (l ++ EClosed :: fr) -> In (EGot k n) l) by (intros k n H; apply in_app_iff in H; destruct H as [H|H]; [exact H|destruct (Z _ _ H)]).
  split; cbn [r_comps r_next r_closed].
  - intros k n H. apply G, W, H.
  - intros n H. apply in_app_iff in H. destruct H as [H|H]; [apply F, H|]. apply X in H. destruct H as [H|(m & H & k & c & K1 & K2)]; [discriminate|]. injection H as <-. eapply G, R; eassumption.
  - intros k j n H K. eapply O; apply W; eassumption.
  - intros k c n H K. apply in_app_iff. left. eapply R; eassumption.
  - discriminate.
  - intros k c H. apply last_old; [apply La, H|apply Z].
  - intros k n c H. split; [apply first_old|]; apply (Fi _ _ _ H).
  - intros k. rewrite in_app_iff, Me. split; [intros [H|H]; [exact H|]|auto]. apply X in H. destruct H as [H|(m & H & _)]; discriminate.
  - rewrite in_app_iff. cbn. tauto.
  - intros _ k n [H N]. apply W in H. destruct (proj1 (Hd C k n)) as (c & K1 & K2).
    + split; [exact H|]. intros V. apply N, in_app_iff. auto.
    + apply N, in_app_iff. right. right. eapply Y; eassumption.
Qed.
Lemma step_inv s l o : Inv s l -> Inv (fst (s_step s o)) (l ++ snd (s_step s o)).
Proof.
  intros I. destruct (r_closed s) eqn:C; [unfold s_step; rewrite C; cbn; rewrite app_nil_r; exact I|].
  destruct o; [apply step_effect|apply step_memo|apply step_change|apply step_close]; assumption.
Qed.
Lemma run_inv ops : forall s l, Inv s l -> Inv (fst (s_run s ops)) (l ++ snd (s_run s ops)).
Proof.
  induction ops as [|o ops IH]; intros s l I; [cbn; rewrite app_nil_r; exact I|]. cbn [s_run].
  pose proof (step_inv s l o I) as J. destruct (s_step s o) as [s1 a]. cbn [fst snd] in J. specialize (IH _ _ J).
  destruct (s_run s1 ops) as [s2 b]. cbn [fst snd] in *. rewrite app_assoc. exact IH.
Qed.
Lemma reach ops : Inv (fst (s_run r_init ops)) (snd (s_run r_init ops)).
Proof.
  apply (run_inv ops r_init []). split; cbn; try (intros; contradiction); try discriminate.
  - intros [|k] c n H; discriminate.
  - intros _ k n. split; [intros [[] _]|intros (c & H & _); destruct k; discriminate].
  - intros [|k] c H; discriminate.
  - intros [|k] n c H; discriminate.
  - intros k. split; [intros []|intros (n & c & H); destruct k; discriminate].
  - split; [intros []|discriminate].
Qed.

Lemma none_left ops : let l := snd (s_run r_init ops) in In EClosed l -> forall k n, ~ held l k n.
Proof. cbn zeta. intros H. pose proof (reach ops) as I. apply (v_none _ _ I), (v_closed _ _ I), H. Qed.
Lemma held_what ops : let l := snd (s_run r_init ops) in ~ In EClosed l -> forall k n, held l k n -> last_run l k n \/ In (EMemo k) l /\ first_run l k n.
Proof.
  cbn zeta. intros H k n K. pose proof (reach ops) as I. assert (C : r_closed (fst (s_run r_init ops)) = false) by (destruct (r_closed _) eqn:E; [exfalso; apply H, (v_closed _ _ I), E|reflexivity]).
  apply (v_held _ _ I C) in K. destruct K as ([f c] & K1 & [K2|K2]); cbn in K2; subst.
  - left. apply (v_last _ _ I _ _ K1).
  - right. split; [apply (v_memo _ _ I); eauto|apply (v_first _ _ I _ _ _ K1)].
Qed.
Lemma last_held ops : let l := snd (s_run r_init ops) in ~ In EClosed l -> forall k m, In (EGot k m) l -> exists n, last_run l k n /\ held l k n.
Proof.
  cbn zeta. intros H k m K. pose proof (reach ops) as I. assert (C : r_closed (fst (s_run r_init ops)) = false) by (destruct (r_closed _) eqn:E; [exfalso; apply H, (v_closed _ _ I), E|reflexivity]).
  apply (v_got _ _ I) in K. destruct K as [_ K]. destruct (nth_error (r_comps (fst (s_run r_init ops))) k) as [c|] eqn:E; [|apply nth_error_None in E; lia].
  exists (snd c). split; [apply (v_last _ _ I _ _ E)|]. apply (v_held _ _ I C). exists c. split; [exact E|left; reflexivity].
Qed.
Lemma memo_both ops : let l := snd (s_run r_init ops) in ~ In EClosed l -> forall k, In (EMemo k) l -> exists m n, m <> n /\ first_run l k m /\ held l k m /\ last_run l k n /\ held l k n.
Proof.
  cbn zeta. intros H k K. pose proof (reach ops) as I. assert (C : r_closed (fst (s_run r_init ops)) = false) by (destruct (r_closed _) eqn:E; [exfalso; apply H, (v_closed _ _ I), E|reflexivity]).
  apply (v_memo _ _ I) in K. destruct K as (m & n & K). exists m, n. destruct (v_first _ _ I _ _ _ K) as [F N].
  split; [exact N|]. split; [exact F|]. split; [apply (v_held _ _ I C); eexists; split; [exact K|right; reflexivity]|].
  split; [apply (v_last _ _ I _ _ K)|apply (v_held _ _ I C); eexists; split; [exact K|left; reflexivity]].
Qed.
Lemma last_unique l k n m : last_run l k n -> last_run l k m -> n = m.
Proof.
  intros (a & b & E & H) (a' & b' & E' & H'). subst l. revert a' E'. induction a as [|x a IH]; intros [|y a'] E; cbn in E.
  - injection E as -> _. reflexivity.
  - injection E as _ E. exfalso. apply (H m). rewrite E, in_app_iff. cbn. auto.
  - injection E as _ E. exfalso. apply (H' n). rewrite <- E, in_app_iff. cbn. auto.
  - injection E as _ E. apply (IH a' E).
Qed.
Lemma effect_one ops : let l := snd (s_run r_init ops) in forall k n m, ~ In (EMemo k) l -> held l k n -> held l k m -> n = m.
Proof.
  cbn zeta. intros k n m N H K. set (l := snd (s_run r_init ops)) in *.
  assert (C : ~ In EClosed l) by (intros C; apply (none_left ops C k n H)).
  destruct (held_what ops C k n H) as [A|[A _]]; [|contradiction]. destruct (held_what ops C k m K) as [B|[B _]]; [|contradiction]. eapply last_unique; eassumption.
Qed.
