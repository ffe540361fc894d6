From Coq Require Import NArith ZArith List Lia Bool.
From Coq Require Import Init.Byte Strings.Byte.
From Coq Require Import ZifyBool ZifyNat ZifyN.
From Verif.Model Require Import Base ErrorCode Stream Frame FrameSys.
From Verif.Spec Require Import CodingSpec MessageSpec StreamSpec TransferSpec FrameSpec.
From Verif.Proofs Require Import BaseP TableP.
Import ListNotations.
Open Scope N_scope.

Lemma frun_app w s a b :
  frun w s (a ++ b) =
  (fst (frun w (fst (frun w s a)) b), snd (frun w s a) ++ snd (frun w (fst (frun w s a)) b)).
Proof.
  revert s; induction a; intros; cbn.
  - destruct (frun w s b); auto.
  - destruct (fstep w s a) as [s1 x]. rewrite IHa. destruct (frun w s1 a0); cbn. auto.
Qed.

Lemma frun_snoc w s ops o :
  frun w s (ops ++ [o]) =
  let (s1, tr) := frun w s ops in let (s2, x) := fstep w s1 o in (s2, tr ++ [(o, x)]).
Proof. rewrite frun_app. cbn. destruct (frun w s ops) as [s1 tr]. cbn. destruct (fstep w s1 o). auto. Qed.

(** Reasoning about executions: an invariant of state and trace. *)
Lemma frun_ind w s0 (I : fsys -> list event -> Prop) :
  I s0 [] -> (forall s tr o s' x, I s tr -> fstep w s o = (s', x) -> I s' (tr ++ [(o, x)])) ->
  forall ops, I (fst (frun w s0 ops)) (snd (frun w s0 ops)).
Proof.
  intros H0 H ops. induction ops using rev_ind; cbn; auto.
  rewrite frun_snoc. destruct (frun w s0 ops) as [s1 tr]. destruct (fstep w s1 x) eqn:E. cbn in *. eauto.
Qed.

Lemma written_snoc tr e : written (tr ++ [e]) = written tr ++ wrote e.
Proof. unfold written. rewrite map_app, concat_app. cbn. rewrite app_nil_r. auto. Qed.
Lemma written_app a b : written (a ++ b) = written a ++ written b.
Proof. unfold written. rewrite map_app, concat_app. auto. Qed.
Lemma observed_snoc tr e : observed (tr ++ [e]) = watch (observed tr) e.
Proof. unfold observed. rewrite fold_left_app. auto. Qed.
Lemma verdict_snoc tr e : verdict (tr ++ [e]) = closing (verdict tr) e.
Proof. unfold verdict. rewrite fold_left_app. auto. Qed.
Lemma senders_snoc tr e : senders (tr ++ [e]) = balance (senders tr) e.
Proof. unfold senders. rewrite fold_left_app. auto. Qed.

Lemma firstn_S_nth {A} (l : list A) n x : nth_error l n = Some x -> firstn (S n) l = firstn n l ++ [x].
Proof. revert n; induction l; intros [|n] H; cbn in *; try congruence. f_equal. auto. Qed.

Lemma firstn_prefix_app {A} (l m : list A) n : (n <= length l)%nat -> firstn n (l ++ m) = firstn n l.
Proof. intros H. rewrite firstn_app. replace (n - length l)%nat with O by lia. cbn. apply app_nil_r. Qed.

(** What reader [x], having been handed [o], looks like against the chunk list. *)
Definition reader_ok (chunks : list bytes) (x : option nat) (o : bytes) : Prop :=
  exists i, (i <= length chunks)%nat /\ o = concat (firstn i chunks) /\ (forall j, x = Some j -> j = i).

Record finv (s : fsys) (tr : list event) : Prop := {
  fi_written : concat (fs_chunks (sy_state s)) = written tr;
  fi_readers : Forall2 (reader_ok (fs_chunks (sy_state s))) (sy_cons s) (observed tr);
  fi_closed : fs_closed (sy_state s) = verdict tr;
  fi_senders : (Z.of_nat (count (sy_prods s)) + Z.of_nat (sy_guards s))%Z = senders tr }.

Lemma reader_ok_grow chunks c x o : reader_ok chunks x o -> reader_ok (chunks ++ [c]) x o.
Proof.
  intros (i & Hi & Ho & Hx). exists i. rewrite app_length. cbn. split; [lia|]. split; auto.
  rewrite firstn_prefix_app; auto.
Qed.

Ltac step_cases H :=
  repeat match type of H with
  | context [match ?x with _ => _ end] => let E := fresh "E" in destruct x eqn:E
  end.

Lemma Forall2_len {A B} (R : A -> B -> Prop) l m : Forall2 R l m -> length l = length m.
Proof. induction 1; cbn; auto. Qed.

Lemma finv_step w s tr o s' x : finv s tr -> fstep w s o = (s', x) -> finv s' (tr ++ [(o, x)]).
Proof.
  intros [Hw Hr Hc Hs] H. pose proof (Forall2_len _ _ _ Hr) as Hl.
  unfold fstep in H.
  destruct o as [p c|p|p e|p|p|p| |p|c|c|c|c].
  - (* write *) destruct (get (sy_prods s) p) as [n|] eqn:G; [|injection H as <- <-; constructor;
      rewrite ?written_snoc, ?observed_snoc, ?verdict_snoc, ?senders_snoc; cbn; rewrite ?app_nil_r; auto].
    unfold frame_write in H. destruct (_ <=? _).
    2: injection H as <- <-; constructor; rewrite ?written_snoc, ?observed_snoc, ?verdict_snoc, ?senders_snoc; cbn;
       rewrite ?app_nil_r; auto; erewrite count_update by eauto; auto.
    destruct (fs_closed (sy_state s)) eqn:C.
    + injection H as <- <-; constructor; rewrite ?written_snoc, ?observed_snoc, ?verdict_snoc, ?senders_snoc; cbn;
        rewrite ?app_nil_r; auto; try congruence; erewrite count_update by eauto; auto.
    + injection H as <- <-; constructor; rewrite ?written_snoc, ?observed_snoc, ?verdict_snoc, ?senders_snoc; cbn; auto.
      * rewrite concat_app. cbn. rewrite app_nil_r. congruence.
      * eapply Forall2_impl; [|exact Hr]. intros; apply reader_ok_grow; auto.
      * erewrite count_update by eauto; auto.
  - (* finish *) destruct (get (sy_prods s) p) as [n|] eqn:G; [|injection H as <- <-; constructor;
      rewrite ?written_snoc, ?observed_snoc, ?verdict_snoc, ?senders_snoc; cbn; rewrite ?app_nil_r; auto].
    pose proof (count_kill _ _ _ G).
    unfold frame_finish in H. destruct (_ =? _); injection H as <- <-;
      constructor; rewrite ?written_snoc, ?observed_snoc, ?verdict_snoc, ?senders_snoc; cbn; rewrite ?app_nil_r; auto; lia.
  - (* abort *) destruct (get (sy_prods s) p) as [n|] eqn:G; injection H as <- <-;
      [pose proof (count_kill _ _ _ G)|];
      constructor; rewrite ?written_snoc, ?observed_snoc, ?verdict_snoc, ?senders_snoc; cbn; rewrite ?app_nil_r; auto; lia.
  - destruct (get (sy_prods s) p) as [n|] eqn:G; injection H as <- <-;
      [pose proof (count_kill _ _ _ G)|];
      constructor; rewrite ?written_snoc, ?observed_snoc, ?verdict_snoc, ?senders_snoc; cbn; rewrite ?app_nil_r; auto; lia.
  - destruct (get (sy_prods s) p) as [n|] eqn:G; injection H as <- <-;
      constructor; rewrite ?written_snoc, ?observed_snoc, ?verdict_snoc, ?senders_snoc; cbn; rewrite ?app_nil_r; auto.
    rewrite count_app. cbn. lia.
  - destruct (get (sy_prods s) p) as [n|] eqn:G; injection H as <- <-;
      constructor; rewrite ?written_snoc, ?observed_snoc, ?verdict_snoc, ?senders_snoc; cbn; rewrite ?app_nil_r; auto. lia.
  - destruct (sy_guards s) eqn:G; injection H as <- <-;
      constructor; rewrite ?written_snoc, ?observed_snoc, ?verdict_snoc, ?senders_snoc; cbn; rewrite ?app_nil_r; auto; lia.
  - destruct (get (sy_prods s) p) as [n|] eqn:G; injection H as <- <-;
      constructor; rewrite ?written_snoc, ?observed_snoc, ?verdict_snoc, ?senders_snoc; cbn; rewrite ?app_nil_r; auto.
    apply Forall2_app; auto. constructor; auto. exists O. cbn. split; [lia|]. split; auto. congruence.
  - (* read *) destruct (get (sy_cons s) c) as [i|] eqn:G; [|injection H as <- <-; constructor;
      rewrite ?written_snoc, ?observed_snoc, ?verdict_snoc, ?senders_snoc; cbn; rewrite ?app_nil_r; auto].
    apply get_Some in G.
    assert (L : (c < length (observed tr))%nat) by (rewrite <- Hl; apply nth_error_Some; congruence).
    pose proof (Forall2_nth_error _ _ _ _ _ _ Hr G (nth_error_nth' (A:=bytes) _ [] L)) as (j & Hj & Ho & Hx).
    specialize (Hx _ eq_refl). subst j.
    unfold frame_read in H. destruct (nth_error (fs_chunks (sy_state s)) i) as [b|] eqn:B.
    + injection H as <- <-. constructor; rewrite ?written_snoc, ?observed_snoc, ?verdict_snoc, ?senders_snoc; cbn [with_cons sy_state sy_cons sy_prods sy_guards wrote watch closing balance]; rewrite ?app_nil_r; auto.
      apply Forall2_set; auto. exists (S i). split; [apply nth_error_Some; congruence|]. split; [|congruence].
      rewrite (firstn_S_nth _ _ _ B), concat_app. cbn [concat]. rewrite app_nil_r. exact (f_equal (fun z => z ++ b) Ho).
    + assert (Hs' : set_nth c (Some i) (sy_cons s) = sy_cons s) by (apply set_nth_same; auto).
      injection H as <- <-. rewrite Hs'.
      constructor; rewrite ?written_snoc, ?observed_snoc, ?verdict_snoc, ?senders_snoc; cbn; rewrite ?app_nil_r; auto.
      destruct (fs_closed (sy_state s)) as [[|]|]; auto. destruct (fsys_alive s); auto.
  - (* read_all *) destruct (get (sy_cons s) c) as [i|] eqn:G; [|injection H as <- <-; constructor;
      rewrite ?written_snoc, ?observed_snoc, ?verdict_snoc, ?senders_snoc; cbn; rewrite ?app_nil_r; auto].
    apply get_Some in G.
    assert (L : (c < length (observed tr))%nat) by (rewrite <- Hl; apply nth_error_Some; congruence).
    pose proof (Forall2_nth_error _ _ _ _ _ _ Hr G (nth_error_nth' (A:=bytes) _ [] L)) as (j & Hj & Ho & Hx).
    specialize (Hx _ eq_refl). subst j.
    assert (Hs' : set_nth c (Some i) (sy_cons s) = sy_cons s) by (apply set_nth_same; auto).
    unfold frame_read_all in H. destruct (fs_closed (sy_state s)) as [[|e]|] eqn:C.
    + destruct (Nat.leb_spec i (length (fs_chunks (sy_state s)))); [|lia].
      injection H as <- <-. constructor; rewrite ?written_snoc, ?observed_snoc, ?verdict_snoc, ?senders_snoc; cbn [with_cons sy_state sy_cons sy_prods sy_guards wrote watch closing balance]; rewrite ?app_nil_r; auto; try congruence.
      apply Forall2_set; auto. exists (length (fs_chunks (sy_state s))). split; [lia|]. split; [|congruence].
      transitivity (concat (firstn i (fs_chunks (sy_state s))) ++ concat (skipn i (fs_chunks (sy_state s)))); [exact (f_equal (fun z => z ++ _) Ho)|]. rewrite <- concat_app, firstn_skipn, firstn_all. auto.
    + injection H as <- <-. rewrite Hs'.
      constructor; rewrite ?written_snoc, ?observed_snoc, ?verdict_snoc, ?senders_snoc; cbn; rewrite ?app_nil_r; auto; congruence.
    + injection H as <- <-. rewrite Hs'.
      constructor; rewrite ?written_snoc, ?observed_snoc, ?verdict_snoc, ?senders_snoc; cbn; rewrite ?app_nil_r; auto; try congruence.
      destruct (fsys_alive s); auto.
  - (* cclone *) destruct (get (sy_cons s) c) as [i|] eqn:G; injection H as <- <-;
      constructor; rewrite ?written_snoc, ?observed_snoc, ?verdict_snoc, ?senders_snoc; cbn; rewrite ?app_nil_r; auto.
    apply get_Some in G.
    assert (L : (c < length (observed tr))%nat) by (rewrite <- Hl; apply nth_error_Some; congruence).
    pose proof (Forall2_nth_error _ _ _ _ _ _ Hr G (nth_error_nth' (A:=bytes) _ [] L)).
    apply Forall2_app; auto.
  - (* cdrop *) destruct (get (sy_cons s) c) as [i|] eqn:G; injection H as <- <-;
      constructor; rewrite ?written_snoc, ?observed_snoc, ?verdict_snoc, ?senders_snoc; cbn; rewrite ?app_nil_r; auto.
    apply get_Some in G.
    assert (L : (c < length (observed tr))%nat) by (rewrite <- Hl; apply nth_error_Some; congruence).
    pose proof (Forall2_nth_error _ _ _ _ _ _ Hr G (nth_error_nth' (A:=bytes) _ [] L)) as (j & Hj & Ho & Hx).
    eapply Forall2_set_l; eauto; [apply nth_error_nth'; auto|]. exists j. split; [exact Hj|]. split; [exact Ho|]. intros ? [=].
Qed.

Lemma finv_run w size ops :
  finv (fst (frun w (fsys_new size) ops)) (snd (frun w (fsys_new size) ops)).
Proof.
  apply frun_ind with (I := finv).
  - constructor; cbn; auto.
  - intros; eapply finv_step; eauto.
Qed.

(** A closed frame accepts no more bytes. *)
Lemma closed_step w s o s' x : fstep w s o = (s', x) -> fs_closed (sy_state s) <> None ->
  fs_closed (sy_state s') <> None /\ wrote (o, x) = [].
Proof.
  intros H C. unfold fstep in H.
  destruct o; cbn in H;
  repeat match type of H with
  | context [get ?t ?h] => destruct (get t h) eqn:?
  | context [sy_guards s] => destruct (sy_guards s) eqn:?
  end;
  unfold frame_write, frame_finish, frame_abort, frame_read_all in H;
  try (destruct (_ <=? _)); try (destruct (_ =? _));
  destruct (fs_closed (sy_state s)) as [[|]|] eqn:?; try congruence;
  try destruct (Nat.leb _ _); try destruct (frame_read _ _ _); injection H as <- <-; cbn; split; try congruence; auto.
Qed.

Lemma closed_run w ops s : fs_closed (sy_state s) <> None -> written (snd (frun w s ops)) = [].
Proof.
  revert s; induction ops; intros; cbn; auto.
  destruct (fstep w s a) eqn:E. destruct (closed_step _ _ _ _ _ E H) as [H1 H2].
  specialize (IHops _ H1). destruct (frun w f ops). cbn in *.
  unfold written in *. cbn [map concat]. rewrite H2, IHops. auto.
Qed.
Lemma trace_split w ops s tr1 e tr2 :
  snd (frun w s ops) = tr1 ++ e :: tr2 ->
  exists ops1 o ops2, ops = ops1 ++ o :: ops2 /\ snd (frun w s ops1) = tr1 /\
    fstep w (fst (frun w s ops1)) o = (fst (frun w s (ops1 ++ [o])), snd e) /\ fst e = o /\
    snd (frun w (fst (frun w s (ops1 ++ [o]))) ops2) = tr2.
Proof.
  revert s tr1; induction ops; intros s tr1 H; cbn in H.
  - destruct tr1; discriminate.
  - destruct (fstep w s a) as [s1 x] eqn:E. destruct (frun w s1 ops) as [s2 tr] eqn:R. cbn in H.
    destruct tr1 as [|e1 tr1]; injection H as <- H.
    + subst tr2. exists [], a, ops. cbn. rewrite E. cbn. rewrite R. cbn. repeat split; auto.
    + replace tr with (snd (frun w s1 ops)) in H by (rewrite R; auto).
      destruct (IHops _ _ H) as (o1 & o & o2 & -> & H1 & H2 & H3 & H4).
      exists (a :: o1), o, o2. cbn. rewrite E.
      destruct (frun w s1 o1) eqn:?. cbn in *. destruct (frun w s1 (o1 ++ [o])) eqn:?. cbn in *. subst. auto.
Qed.

Lemma readers_prefix w size ops c :
  prefix (nth c (observed (snd (frun w (fsys_new size) ops))) []) (written (snd (frun w (fsys_new size) ops))).
Proof.
  pose proof (finv_run w size ops) as [Hw Hr _ _].
  set (s := fst (frun w (fsys_new size) ops)) in *. set (tr := snd (frun w (fsys_new size) ops)) in *.
  destruct (Nat.lt_ge_cases c (length (observed tr))) as [L|L].
  - assert (exists x, nth_error (sy_cons s) c = Some x) as [x Hx].
    { destruct (nth_error (sy_cons s) c) eqn:E; eauto. apply nth_error_None in E.
      rewrite (Forall2_len _ _ _ Hr) in E. lia. }
    pose proof (Forall2_nth_error _ _ _ _ _ _ Hr Hx (nth_error_nth' (A:=bytes) _ [] L)) as (j & Hj & Ho & _).
    rewrite Ho, <- Hw. exists (concat (skipn j (fs_chunks (sy_state s)))).
    rewrite <- concat_app, firstn_skipn. auto.
  - rewrite nth_overflow by auto. exists (written tr). auto.
Qed.

Lemma told_end_all w size ops tr1 e tr2 c :
  snd (frun w (fsys_new size) ops) = tr1 ++ e :: tr2 -> told_end e c ->
  nth c (observed (tr1 ++ [e])) [] = written (snd (frun w (fsys_new size) ops)).
Proof.
  intros H T. destruct (trace_split _ _ _ _ _ _ H) as (o1 & o & o2 & -> & H1 & H2 & H3 & H4).
  rewrite H. replace (tr1 ++ e :: tr2) with ((tr1 ++ [e]) ++ tr2) by (rewrite <- app_assoc; auto).
  pose proof (finv_run w size o1) as [Hw Hr Hc Hs]. rewrite H1 in *.
  set (s := fst (frun w (fsys_new size) o1)) in *.
  assert (C : fs_closed (sy_state s) = Some Finished).
  { destruct e as [o' x]. cbn in H3, H2. subst o'. unfold fstep in H2.
    destruct T as [T|[b T]]; injection T as -> ->.
    - destruct (get (sy_cons s) c) as [i|]; [|discriminate].
      unfold frame_read in H2. destruct (nth_error _ _); [discriminate|].
      destruct (fs_closed (sy_state s)) as [[|]|]; try discriminate; auto. destruct (fsys_alive s); discriminate.
    - destruct (get (sy_cons s) c) as [i|]; [|discriminate].
      unfold frame_read_all in H2.
      destruct (fs_closed (sy_state s)) as [[|]|]; try discriminate; auto. destruct (fsys_alive s); discriminate. }
  destruct (closed_step w s o _ _ H2) as [C' W0]; [congruence|].
  assert (W2 : written tr2 = []) by (rewrite <- H4; apply closed_run; auto).
  assert (Wa : written ((tr1 ++ [e]) ++ tr2) = written tr1).
  { rewrite written_app, W2, written_snoc, app_nil_r.
    replace (wrote e) with (@nil byte) by (destruct e; cbn in *; subst; auto). rewrite app_nil_r. auto. }
  rewrite Wa, observed_snoc.
  destruct e as [o' x]. cbn in H3, H2. subst o'. unfold fstep in H2.
  destruct T as [T|[b T]]; injection T as -> ->; cbn [watch].
  - destruct (get (sy_cons s) c) as [i|] eqn:G; [|discriminate]. apply get_Some in G.
    assert (L : (c < length (observed tr1))%nat)
      by (rewrite <- (Forall2_len _ _ _ Hr); apply nth_error_Some; congruence).
    pose proof (Forall2_nth_error _ _ _ _ _ _ Hr G (nth_error_nth' (A:=bytes) _ [] L)) as (j & Hj & Ho & Hx).
    specialize (Hx _ eq_refl). subst j.
    unfold frame_read in H2. destruct (nth_error (fs_chunks (sy_state s)) i) eqn:E; [discriminate|].
    apply nth_error_None in E. rewrite Ho, <- Hw, firstn_all2 by lia. auto.
  - destruct (get (sy_cons s) c) as [i|] eqn:G; [|discriminate]. apply get_Some in G.
    assert (L : (c < length (observed tr1))%nat)
      by (rewrite <- (Forall2_len _ _ _ Hr); apply nth_error_Some; congruence).
    pose proof (Forall2_nth_error _ _ _ _ _ _ Hr G (nth_error_nth' (A:=bytes) _ [] L)) as (j & Hj & Ho & Hx).
    specialize (Hx _ eq_refl). subst j.
    unfold frame_read_all in H2. rewrite C in H2. destruct (Nat.leb _ _); [|discriminate].
    injection H2 as _ <-. rewrite nth_set_eq by auto.
    rewrite Ho, <- concat_app, firstn_skipn. auto.
Qed.

Lemma alive_senders s tr : finv s tr -> fsys_alive s = (0 <? senders tr)%Z.
Proof.
  intros [_ _ _ Hs]. unfold fsys_alive. rewrite live_count. rewrite <- Hs.
  destruct (Nat.eqb_spec (count (sy_prods s)) 0), (Nat.eqb_spec (sy_guards s) 0); cbn; lia.
Qed.

(** The result of polling [read]. *)
Lemma read_result w size ops c s' x :
  let tr := snd (frun w (fsys_new size) ops) in
  fstep w (fst (frun w (fsys_new size) ops)) (FRead c) = (s', x) -> x <> FBad ->
  let seen := nth c (observed tr) [] in
  (exists b, x = FGot (AOk (Some b)) /\ prefix (seen ++ b) (written tr)) \/
  (seen = written tr /\
   x = FGot (match verdict tr with None => if (0 <? senders tr)%Z then APending else AErr Cancel | v => at_end v end)).
Proof.
  intros tr H Hb seen. pose proof (finv_run w size ops) as I. fold tr in I.
  pose proof (alive_senders _ _ I) as Ha. destruct I as [Hw Hr Hc Hs].
  set (s := fst (frun w (fsys_new size) ops)) in *. unfold fstep in H.
  destruct (get (sy_cons s) c) as [i|] eqn:G; [|injection H; congruence].
  apply get_Some in G.
  assert (L : (c < length (observed tr))%nat)
    by (rewrite <- (Forall2_len _ _ _ Hr); apply nth_error_Some; congruence).
  pose proof (Forall2_nth_error _ _ _ _ _ _ Hr G (nth_error_nth' (A:=bytes) _ [] L)) as (j & Hj & Ho & Hx).
  specialize (Hx _ eq_refl). subst j. fold seen in Ho.
  unfold frame_read in H. destruct (nth_error (fs_chunks (sy_state s)) i) as [b|] eqn:E.
  - injection H as <- <-. left. exists b. split; auto. rewrite Ho, <- Hw.
    exists (concat (skipn (S i) (fs_chunks (sy_state s)))).
    pose proof (firstn_S_nth _ _ _ E) as F.
    rewrite <- (firstn_skipn (S i) (fs_chunks (sy_state s))) at 1.
    rewrite concat_app, F, concat_app. cbn. rewrite app_nil_r. auto.
  - injection H as <- <-. right. apply nth_error_None in E. split.
    + rewrite Ho, <- Hw, firstn_all2 by lia. auto.
    + rewrite Hc, Ha. destruct (verdict tr) as [[|]|]; cbn; auto.
Qed.

Lemma read_all_result w size ops c s' x :
  let tr := snd (frun w (fsys_new size) ops) in
  fstep w (fst (frun w (fsys_new size) ops)) (FReadAll c) = (s', x) -> x <> FBad ->
  exists rest, written tr = nth c (observed tr) [] ++ rest /\
  x = FAll (match verdict tr with
            | Some Finished => AOk rest
            | Some (Failed e) => AErr e
            | None => if (0 <? senders tr)%Z then APending else AErr Cancel
            end).
Proof.
  intros tr H Hb. pose proof (finv_run w size ops) as I. fold tr in I.
  pose proof (alive_senders _ _ I) as Ha. destruct I as [Hw Hr Hc Hs].
  set (s := fst (frun w (fsys_new size) ops)) in *. unfold fstep in H.
  destruct (get (sy_cons s) c) as [i|] eqn:G; [|injection H; congruence].
  apply get_Some in G.
  assert (L : (c < length (observed tr))%nat)
    by (rewrite <- (Forall2_len _ _ _ Hr); apply nth_error_Some; congruence).
  pose proof (Forall2_nth_error _ _ _ _ _ _ Hr G (nth_error_nth' (A:=bytes) _ [] L)) as (j & Hj & Ho & Hx).
  specialize (Hx _ eq_refl). subst j.
  exists (concat (skipn i (fs_chunks (sy_state s)))). split.
  - rewrite Ho, <- Hw, <- concat_app, firstn_skipn. auto.
  - unfold frame_read_all in H. rewrite <- Hc, <- Ha.
    destruct (fs_closed (sy_state s)) as [[|]|].
    + destruct (Nat.leb_spec i (length (fs_chunks (sy_state s)))); [|lia]. injection H as _ <-. auto.
    + injection H as _ <-. auto.
    + injection H as _ <-. auto.
Qed.

(** Writing to a frame. *)
Lemma write_closed w size ops p c s' x :
  let s := fst (frun w (fsys_new size) ops) in
  verdict (snd (frun w (fsys_new size) ops)) <> None ->
  fstep w s (FWrite p c) = (s', x) -> x <> FBad ->
  x = FPanic /\ sy_state s' = sy_state s /\ sy_cons s' = sy_cons s /\ sy_guards s' = sy_guards s.
Proof.
  intros s V H Hb. pose proof (finv_run w size ops) as [_ _ Hc _]. fold s in Hc. rewrite <- Hc in V.
  unfold fstep in H. destruct (get (sy_prods s) p); [|injection H; congruence].
  unfold frame_write in H. destruct (_ <=? _), (fs_closed (sy_state s)); try congruence;
    injection H as <- <-; auto.
Qed.

(** Cloned writers: everything that has been written is accounted for by the counters, a used up
    handle counting for the whole size. *)
Definition share (size : N) (x : option N) : N := match x with None => size | Some v => N.min v size end.
Fixpoint shares (size : N) (t : table N) : N :=
  match t with [] => 0 | x :: t => share size x + shares size t end.
Lemma shares_app size t u : shares size (t ++ u) = shares size t + shares size u.
Proof. induction t; cbn; lia. Qed.
Lemma shares_bound size t : shares size t <= size * N.of_nat (length t).
Proof. induction t; cbn; try lia. destruct a; cbn in *; lia. Qed.
Lemma shares_set size t p y x : nth_error t p = Some y ->
  shares size (set_nth p x t) + share size y = shares size t + share size x.
Proof.
  intros H. destruct (set_nth_split _ x _ _ H) as (a & b & -> & -> & _). rewrite !shares_app. cbn. lia.
Qed.

Definition cinv (w size : N) (s : fsys) (tr : list event) : Prop :=
  sy_size s = size /\ len (written tr) <= shares (size mod 2 ^ w) (sy_prods s) /\
  N.of_nat (length (sy_prods s)) <= 1 + clones (map fst tr).

Lemma len_app' {A} (a b : list A) : len (a ++ b) = len a + len b.
Proof. unfold len. rewrite app_length. lia. Qed.

Lemma clones_snoc (tr : list event) o x : clones (map fst (tr ++ [(o, x)])) =
  clones (map fst tr) + match o with FClone _ => 1 | _ => 0 end.
Proof. unfold clones. rewrite map_app, filter_app, app_length, Nnat.Nat2N.inj_add. destruct o; reflexivity. Qed.

Lemma cinv_step w size s tr o s' x :
  cinv w size s tr -> fstep w s o = (s', x) -> cinv w size s' (tr ++ [(o, x)]).
Proof.
  intros (Hz & Hw & Hn) H. unfold cinv. rewrite written_snoc, clones_snoc, len_app'.
  unfold fstep, frame_write, frame_finish in H. rewrite ?Hz in H.
  remember (size mod 2 ^ w) as m eqn:Em; clear Em. destruct o; rewrite ?Hz in H.
  - destruct (get (sy_prods s) p) as [n|] eqn:G; [|injection H as <- <-; cbn [wrote]; change (len []) with 0; lia].
    apply get_Some in G.
    destruct (N.leb_spec (n + len c) m).
    + pose proof (shares_set m _ _ _ (Some (n + len c)) G) as S. cbn [share] in S.
      destruct (fs_closed (sy_state s)); injection H as <- <-;
        cbn [wrote sy_size with_prods with_state sy_prods]; rewrite set_nth_length; 
        try change (len []) with 0; lia.
    + pose proof (shares_set m _ _ _ (Some (n + len c)) G) as S. cbn [share] in S.
      injection H as <- <-;
        cbn [wrote sy_size with_prods with_state sy_prods]; rewrite set_nth_length; 
        change (len []) with 0; lia.
  - destruct (get (sy_prods s) p) as [n|] eqn:G; [|injection H as <- <-; cbn [wrote]; change (len []) with 0; lia].
    apply get_Some in G. pose proof (shares_set m _ _ _ None G) as S. cbn [share] in S.
    destruct (_ =? _); injection H as <- <-;
      cbn [wrote sy_size with_prods with_state sy_prods]; rewrite set_nth_length; 
      change (len []) with 0; lia.
  - destruct (get (sy_prods s) p) as [n|] eqn:G; [|injection H as <- <-; cbn [wrote]; change (len []) with 0; lia].
    apply get_Some in G. pose proof (shares_set m _ _ _ None G) as S. cbn [share] in S.
    injection H as <- <-;
      cbn [wrote sy_size with_prods with_state sy_prods]; rewrite set_nth_length; 
      change (len []) with 0; lia.
  - destruct (get (sy_prods s) p) as [n|] eqn:G; [|injection H as <- <-; cbn [wrote]; change (len []) with 0; lia].
    apply get_Some in G. pose proof (shares_set m _ _ _ None G) as S. cbn [share] in S.
    injection H as <- <-;
      cbn [wrote sy_size with_prods with_state sy_prods]; rewrite set_nth_length; 
      change (len []) with 0; lia.
  - destruct (get (sy_prods s) p) as [n|] eqn:G; injection H as <- <-; cbn [wrote sy_size with_prods sy_prods]; change (len []) with 0; try lia.
    rewrite shares_app, app_length. cbn [length]. lia.
  - destruct (get (sy_prods s) p) as [n|] eqn:G; injection H as <- <-; cbn [wrote sy_size with_guards sy_prods]; change (len []) with 0; lia.
  - destruct (sy_guards s); injection H as <- <-; cbn [wrote sy_size with_guards sy_prods]; change (len []) with 0; lia.
  - destruct (get (sy_prods s) p) as [n|] eqn:G; injection H as <- <-; cbn [wrote sy_size with_cons sy_prods]; change (len []) with 0; lia.
  - destruct (get (sy_cons s) c) as [n|] eqn:G; [destruct (frame_read _ _ _)|]; injection H as <- <-; cbn [wrote sy_size with_cons sy_prods]; change (len []) with 0; lia.
  - destruct (get (sy_cons s) c) as [n|] eqn:G; [destruct (frame_read_all _ _ _) as [[]|]|]; injection H as <- <-; cbn [wrote sy_size with_cons sy_prods]; change (len []) with 0; lia.
  - destruct (get (sy_cons s) c) as [n|] eqn:G; injection H as <- <-; cbn [wrote sy_size with_cons sy_prods]; change (len []) with 0; lia.
  - destruct (get (sy_cons s) c) as [n|] eqn:G; injection H as <- <-; cbn [wrote sy_size with_cons sy_prods]; change (len []) with 0; lia.
Qed.

Lemma ops_of_trace w s ops : map fst (snd (frun w s ops)) = ops.
Proof.
  revert s; induction ops; intros; cbn; auto. destruct (fstep w s a). specialize (IHops f).
  destruct (frun w f ops). cbn in *. congruence.
Qed.

Lemma clones_bound w size ops :
  len (written (snd (frun w (fsys_new size) ops))) <= (size mod 2 ^ w) * (1 + clones ops).
Proof.
  assert (H : cinv w size (fst (frun w (fsys_new size) ops)) (snd (frun w (fsys_new size) ops))).
  { apply frun_ind with (I := cinv w size).
    - unfold cinv. cbn. split; auto. split; lia.
    - intros; eapply cinv_step; eauto. }
  destruct H as (_ & Hw & Hn). rewrite ops_of_trace in Hn.
  pose proof (shares_bound (size mod 2 ^ w) (sy_prods (fst (frun w (fsys_new size) ops)))).
  etransitivity; [exact Hw|]. etransitivity; [exact H|]. apply N.mul_le_mono_l. exact Hn.
Qed.

(** A single writer. *)
Definition sinv (w size : N) (s : fsys) (tr : list event) : Prop :=
  sy_size s = size /\ len (written tr) <= size mod 2 ^ w /\ length (sy_prods s) = 1%nat /\
  (forall p n, get (sy_prods s) p = Some n ->
     fs_closed (sy_state s) = None /\ len (written tr) <= n /\
     (n = len (written tr) \/ (size mod 2 ^ w < n /\ ~ no_panic tr))) /\
  (fs_closed (sy_state s) = Some Finished -> len (written tr) = size mod 2 ^ w).

Lemma no_panic_snoc tr e : no_panic (tr ++ [e]) <-> no_panic tr /\ snd e <> FPanic.
Proof. unfold no_panic. rewrite Forall_app. split; intros [H1 H2]; split; auto. inversion H2; auto. Qed.

Lemma sinv_step w size s tr o s' x :
  match o with FClone _ => False | _ => True end ->
  sinv w size s tr -> fstep w s o = (s', x) -> sinv w size s' (tr ++ [(o, x)]).
Proof.
  intros Hno (Hz & Hb & Hl & Hp & Hf) H. unfold sinv. rewrite written_snoc, len_app'.
  assert (Keep : forall e, snd e <> FPanic -> wrote e = [] ->
    forall p n, get (sy_prods s) p = Some n -> fs_closed (sy_state s) = None /\ len (written tr) + len (wrote e) <= n /\
    (n = len (written tr) + len (wrote e) \/ (size mod 2 ^ w < n /\ ~ no_panic (tr ++ [e])))).
  { intros e He W p n G. destruct (Hp _ _ G) as (P1 & P2 & P3). rewrite W. change (len []) with 0.
    split; auto. split; [lia|]. rewrite no_panic_snoc. destruct P3 as [|[]]; [left; lia|right; tauto]. }
  assert (Gone : forall y p n, get (set_nth p y (sy_prods s)) p = Some n -> (p < 1)%nat).
  { intros y p n G. apply get_lt in G. rewrite set_nth_length in G. lia. }
  assert (Other : forall p q n, get (sy_prods s) p <> None -> get (set_nth p None (sy_prods s)) q = Some n -> False).
  { intros p q n Hg G. destruct (get (sy_prods s) p) eqn:E; [|congruence].
    pose proof (get_lt _ _ _ E). pose proof (get_lt _ _ _ G) as L. rewrite set_nth_length in L.
    assert (p = q) by lia. subst q. erewrite get_set_eq in G by eauto. discriminate. }
  unfold fstep in H. destruct o; try contradiction.
  - destruct (get (sy_prods s) p) as [n|] eqn:G.
    2:{ injection H as <- <-. cbn [wrote]. change (len []) with 0. rewrite N.add_0_r.
        repeat split; auto; try (eapply (Keep (FWrite p c, FBad)); eauto; cbn; congruence);
        destruct (Keep (FWrite p c, FBad) ltac:(cbn; congruence) eq_refl _ _ H) as (K1 & K2 & K3);
        cbn [wrote] in *; change (len []) with 0 in *; rewrite N.add_0_r in *; auto. }
    pose proof (get_lt _ _ _ G) as Lp. destruct (Hp _ _ G) as (P1 & P2 & P3).
    unfold frame_write in H. rewrite Hz, P1 in H.
    destruct (N.leb_spec (n + len c) (size mod 2 ^ w)).
    + injection H as <- <-. cbn [wrote sy_size with_prods with_state sy_prods sy_state fs_closed]. rewrite set_nth_length.
      destruct P3 as [->|[P3 P4]]; [|lia].
      split; auto. split; [lia|]. split; auto. split; [|congruence].
      intros q m Gq. pose proof (get_lt _ _ _ Gq) as L. rewrite set_nth_length in L.
      assert (p = q) by lia. subst q. erewrite get_set_eq in Gq by eauto. injection Gq as <-.
      split; auto. split; [lia|]. auto.
    + injection H as <- <-. cbn [wrote sy_size with_prods sy_prods sy_state]. rewrite set_nth_length.
      change (len []) with 0. rewrite N.add_0_r.
      split; auto. split; [lia|]. split; auto. split; [|congruence].
      intros q m Gq. pose proof (get_lt _ _ _ Gq) as L. rewrite set_nth_length in L.
      assert (p = q) by lia. subst q. erewrite get_set_eq in Gq by eauto. injection Gq as <-.
      split; auto. split; [lia|]. right. split; auto. rewrite no_panic_snoc. cbn. intuition congruence.
  - destruct (get (sy_prods s) p) as [n|] eqn:G.
    2:{ injection H as <- <-. specialize (Keep (FFinish p, FBad) ltac:(cbn; congruence) eq_refl).
        cbn [wrote] in *. change (len []) with 0 in *. rewrite N.add_0_r in *. auto. }
    destruct (Hp _ _ G) as (P1 & P2 & P3).
    unfold frame_finish in H. rewrite Hz in H. destruct (N.eqb_spec n (size mod 2 ^ w)); injection H as <- <-;
      cbn [wrote sy_size with_prods with_state sy_prods sy_state fs_closed]; rewrite set_nth_length;
      change (len []) with 0; rewrite N.add_0_r.
    + split; auto. split; auto. split; auto. split; [intros q m Gq; exfalso; apply (Other p q m); congruence|].
      intros _. destruct P3; lia.
    + split; auto. split; auto. split; auto. split; [intros q m Gq; exfalso; apply (Other p q m); congruence|]. auto.
  - destruct (get (sy_prods s) p) as [n|] eqn:G.
    2:{ injection H as <- <-. specialize (Keep (FAbort p e, FBad) ltac:(cbn; congruence) eq_refl).
        cbn [wrote] in *. change (len []) with 0 in *. rewrite N.add_0_r in *. auto. }
    injection H as <- <-;
      cbn [wrote sy_size with_prods with_state sy_prods sy_state fs_closed frame_abort]; rewrite set_nth_length;
      change (len []) with 0; rewrite N.add_0_r.
    split; auto. split; auto. split; auto. split; [intros q m Gq; exfalso; apply (Other p q m); congruence|]. congruence.
  - destruct (get (sy_prods s) p) as [n|] eqn:G.
    2:{ injection H as <- <-. specialize (Keep (FDrop p, FBad) ltac:(cbn; congruence) eq_refl).
        cbn [wrote] in *. change (len []) with 0 in *. rewrite N.add_0_r in *. auto. }
    injection H as <- <-;
      cbn [wrote sy_size with_prods with_state sy_prods sy_state fs_closed]; rewrite set_nth_length;
      change (len []) with 0; rewrite N.add_0_r.
    split; auto. split; auto. split; auto. split; [intros q m Gq; exfalso; apply (Other p q m); congruence|]. auto.
  - specialize (fun z Hz' => Keep (FUnused p, z) Hz' eq_refl).
    destruct (get (sy_prods s) p); injection H as <- <-;
      cbn [wrote sy_size with_guards sy_prods sy_state snd] in *; change (len []) with 0 in *; rewrite N.add_0_r in *;
      (split; [auto|]; split; [auto|]; split; [auto|]; split; [|auto]); apply Keep; congruence.
  - specialize (fun z Hz' => Keep (FUnusedDrop, z) Hz' eq_refl).
    destruct (sy_guards s); injection H as <- <-;
      cbn [wrote sy_size with_guards sy_prods sy_state snd] in *; change (len []) with 0 in *; rewrite N.add_0_r in *;
      (split; [auto|]; split; [auto|]; split; [auto|]; split; [|auto]); apply Keep; congruence.
  - specialize (fun z Hz' => Keep (FConsume p, z) Hz' eq_refl).
    destruct (get (sy_prods s) p); injection H as <- <-;
      cbn [wrote sy_size with_cons sy_prods sy_state snd] in *; change (len []) with 0 in *; rewrite N.add_0_r in *;
      (split; [auto|]; split; [auto|]; split; [auto|]; split; [|auto]); apply Keep; congruence.
  - specialize (fun z Hz' => Keep (FRead c, z) Hz' eq_refl).
    destruct (get (sy_cons s) c); [destruct (frame_read _ _ _)|]; injection H as <- <-;
      cbn [wrote sy_size with_cons sy_prods sy_state snd] in *; change (len []) with 0 in *; rewrite N.add_0_r in *;
      (split; [auto|]; split; [auto|]; split; [auto|]; split; [|auto]); apply Keep; congruence.
  - specialize (fun z Hz' => Keep (FReadAll c, z) Hz' eq_refl).
    destruct (get (sy_cons s) c); [destruct (frame_read_all _ _ _) as [[]|] eqn:R|]; injection H as <- <-;
      cbn [wrote sy_size with_cons sy_prods sy_state snd] in *; change (len []) with 0 in *; rewrite N.add_0_r in *;
      (split; [auto|]; split; [auto|]; split; [auto|]; split; [|auto]); try (apply Keep; congruence).
    intros q m Gq. destruct (Hp _ _ Gq) as (P1 & P2 & P3). unfold frame_read_all in R. rewrite P1 in R. discriminate.
  - specialize (fun z Hz' => Keep (FCClone c, z) Hz' eq_refl).
    destruct (get (sy_cons s) c); injection H as <- <-;
      cbn [wrote sy_size with_cons sy_prods sy_state snd] in *; change (len []) with 0 in *; rewrite N.add_0_r in *;
      (split; [auto|]; split; [auto|]; split; [auto|]; split; [|auto]); apply Keep; congruence.
  - specialize (fun z Hz' => Keep (FCDrop c, z) Hz' eq_refl).
    destruct (get (sy_cons s) c); injection H as <- <-;
      cbn [wrote sy_size with_cons sy_prods sy_state snd] in *; change (len []) with 0 in *; rewrite N.add_0_r in *;
      (split; [auto|]; split; [auto|]; split; [auto|]; split; [|auto]); apply Keep; congruence.
Qed.

Lemma sinv_run w size ops : never_cloned ops ->
  sinv w size (fst (frun w (fsys_new size) ops)) (snd (frun w (fsys_new size) ops)).
Proof.
  induction ops using rev_ind; intros H.
  - unfold sinv. cbn. split; auto. split; [lia|]. split; auto. split; [|discriminate].
    intros [|[|p]] n; cbn; intros E; try discriminate. injection E as <-. split; auto. split; [lia|]. auto.
  - apply Forall_app in H as [H1 H2]. inversion H2; subst. specialize (IHops H1).
    rewrite frun_snoc. destruct (frun w (fsys_new size) ops) as [s1 tr]. destruct (fstep w s1 x) eqn:E. cbn in *.
    eapply sinv_step; eauto.
Qed.

Lemma single_complete w size ops : never_cloned ops ->
  verdict (snd (frun w (fsys_new size) ops)) = Some Finished ->
  len (written (snd (frun w (fsys_new size) ops))) = size mod 2 ^ w.
Proof.
  intros H V. destruct (sinv_run w size ops H) as (_ & _ & _ & _ & F). apply F.
  destruct (finv_run w size ops) as [_ _ Hc _]. congruence.
Qed.
Lemma single_bound w size ops : never_cloned ops ->
  len (written (snd (frun w (fsys_new size) ops))) <= size mod 2 ^ w.
Proof. intros H. destruct (sinv_run w size ops H) as (_ & F & _). exact F. Qed.
Lemma single_write w size ops p c s' x : never_cloned ops ->
  let tr := snd (frun w (fsys_new size) ops) in
  no_panic tr -> fstep w (fst (frun w (fsys_new size) ops)) (FWrite p c) = (s', x) -> x <> FBad ->
  x = if len (written tr) + len c <=? size mod 2 ^ w then FUnit else FPanic.
Proof.
  intros H tr Hn E Hb. destruct (sinv_run w size ops H) as (Hz & _ & _ & P & _). fold tr in P.
  unfold fstep in E. destruct (get _ p) as [n|] eqn:G; [|injection E; congruence].
  destruct (P _ _ G) as (P1 & P2 & [->|[_ P3]]); [|contradiction].
  unfold frame_write in E. rewrite Hz, P1 in E. destruct (_ <=? _); injection E as _ <-; auto.
Qed.
Lemma single_finish w size ops p s' x : never_cloned ops ->
  let tr := snd (frun w (fsys_new size) ops) in
  no_panic tr -> fstep w (fst (frun w (fsys_new size) ops)) (FFinish p) = (s', x) -> x <> FBad ->
  x = if len (written tr) =? size mod 2 ^ w then FUnit else FPanic.
Proof.
  intros H tr Hn E Hb. destruct (sinv_run w size ops H) as (Hz & _ & _ & P & _). fold tr in P.
  unfold fstep in E. destruct (get _ p) as [n|] eqn:G; [|injection E; congruence].
  destruct (P _ _ G) as (P1 & P2 & [->|[_ P3]]); [|contradiction].
  unfold frame_finish in E. rewrite Hz in E. destruct (_ =? _); injection E as _ <-; auto.
Qed.

Lemma frame_released w size ops c s' x :
  let tr := snd (frun w (fsys_new size) ops) in
  senders tr = 0%Z ->
  fstep w (fst (frun w (fsys_new size) ops)) (FRead c) = (s', x) -> x <> FBad ->
  let seen := nth c (observed tr) [] in
  (exists b, x = FGot (AOk (Some b)) /\ prefix (seen ++ b) (written tr)) \/
  (seen = written tr /\ x = FGot (at_end (verdict tr))).
Proof.
  intros tr S H Hb seen. destruct (read_result w size ops c s' x H Hb) as [K|[K1 K2]]; [left; exact K|right].
  split; auto. fold tr in K2. rewrite S in K2. rewrite K2. destruct (verdict tr); auto.
Qed.

Lemma frame_all_released w size ops c s' x :
  let tr := snd (frun w (fsys_new size) ops) in
  senders tr = 0%Z ->
  fstep w (fst (frun w (fsys_new size) ops)) (FReadAll c) = (s', x) -> x <> FBad ->
  exists rest, written tr = nth c (observed tr) [] ++ rest /\
  x = FAll (match at_end (verdict tr) with AOk _ => AOk rest | AErr e => AErr e | APending => APending | AFuel => AFuel end).
Proof.
  intros tr S H Hb. destruct (read_all_result w size ops c s' x H Hb) as (rest & K1 & K2).
  exists rest. split; auto. fold tr in K2. rewrite S in K2. rewrite K2. destruct (verdict tr) as [[|]|]; auto.
Qed.

Lemma verdict_final w size ops more v : never_cloned (ops ++ more) ->
  verdict (snd (frun w (fsys_new size) ops)) = Some v ->
  verdict (snd (frun w (fsys_new size) (ops ++ more))) = Some v.
Proof.
  intros Hn V. induction more using rev_ind; [rewrite app_nil_r; auto|].
  rewrite app_assoc in *. apply Forall_app in Hn as [Hn Hx]. specialize (IHmore Hn).
  pose proof (sinv_run w size _ Hn) as (_ & _ & _ & P & _). pose proof (finv_run w size (ops ++ more)) as [_ _ Hc _].
  rewrite frun_snoc. destruct (frun w (fsys_new size) (ops ++ more)) as [s tr]. cbn [fst snd] in *.
  destruct (fstep w s x) as [s' y] eqn:E. cbn. etransitivity; [apply (verdict_snoc tr (x, y))|]. change (fold_left closing tr None) with (verdict tr) in IHmore. rewrite IHmore.
  assert (G : forall p, get (sy_prods s) p = None).
  { intros p. destruct (get (sy_prods s) p) eqn:G; auto. apply P in G as [G _]. congruence. }
  unfold closing. destruct x; auto; unfold fstep in E; rewrite G in E; injection E as <- <-; auto.
Qed.

(** What each writer may still write. *)
Lemma attempted_snoc tr e : attempted (tr ++ [e]) = tally (attempted tr) e.
Proof. apply fold_left_app. Qed.

Definition tinv (size : N) (s : fsys) (tr : list event) : Prop :=
  sy_size s = size /\ length (attempted tr) = length (sy_prods s) /\
  forall p v, get (sy_prods s) p = Some v -> v = nth p (attempted tr) 0.

Lemma tinv_step w size s tr o s' x :
  tinv size s tr -> fstep w s o = (s', x) -> tinv size s' (tr ++ [(o, x)]).
Proof.
  intros (Hz & Hl & Hv) H. unfold tinv. rewrite attempted_snoc.
  assert (Gone : forall p n, get (sy_prods s) p = Some n ->
    length (attempted tr) = length (set_nth p None (sy_prods s)) /\
    forall q v, get (set_nth p None (sy_prods s)) q = Some v -> v = nth q (attempted tr) 0).
  { intros p n G. rewrite set_nth_length. split; [exact Hl|]. intros q v Hq.
    destruct (Nat.eq_dec p q) as [<-|Ne]; [rewrite (get_set_eq _ _ _ _ G) in Hq; discriminate|].
    rewrite get_set_ne in Hq by exact Ne. auto. }
  unfold fstep in H. destruct o.
  - destruct (get (sy_prods s) p) as [n|] eqn:G; [|injection H as <- <-; cbn [tally]; auto].
    unfold frame_write in H. cbv zeta in H.
    assert (W : length (set_nth p (nth p (attempted tr) 0 + len c) (attempted tr)) = length (set_nth p (Some (n + len c)) (sy_prods s)) /\
      forall q v, get (set_nth p (Some (n + len c)) (sy_prods s)) q = Some v ->
        v = nth q (set_nth p (nth p (attempted tr) 0 + len c) (attempted tr)) 0).
    { rewrite !set_nth_length. split; [exact Hl|]. intros q v Hq.
      destruct (Nat.eq_dec p q) as [<-|Ne].
      - rewrite (get_set_eq _ _ _ _ G) in Hq. injection Hq as <-.
        rewrite nth_set_eq by (rewrite Hl; eapply get_lt; eauto). rewrite <- (Hv _ _ G). reflexivity.
      - rewrite get_set_ne in Hq by exact Ne. rewrite nth_set_ne by exact Ne. auto. }
    destruct W as [W1 W2].
    destruct (_ <=? _); [destruct (fs_closed (sy_state s))|]; injection H as <- <-; cbn [tally]; auto.
  - destruct (get (sy_prods s) p) as [n|] eqn:G; [|injection H as <- <-; cbn [tally]; auto].
    destruct (Gone _ _ G). destruct (frame_finish _ _ _ _); injection H as <- <-; cbn [tally]; auto.
  - destruct (get (sy_prods s) p) as [n|] eqn:G; [|injection H as <- <-; cbn [tally]; auto].
    destruct (Gone _ _ G). injection H as <- <-; cbn [tally]; auto.
  - destruct (get (sy_prods s) p) as [n|] eqn:G; [|injection H as <- <-; cbn [tally]; auto].
    destruct (Gone _ _ G). injection H as <- <-; cbn [tally]; auto.
  - destruct (get (sy_prods s) p) as [n|] eqn:G; injection H as <- <-; cbn [tally]; auto.
    cbn [with_prods sy_size sy_prods]. rewrite !app_length, Hl. split; [exact Hz|]. split; [reflexivity|].
    intros q v Hq. destruct (Nat.lt_ge_cases q (length (sy_prods s))) as [Hlt|Hge].
    + rewrite app_nth1 by lia. apply Hv. unfold get in *. rewrite nth_error_app1 in Hq by exact Hlt. exact Hq.
    + unfold get in Hq. rewrite nth_error_app2 in Hq by exact Hge. rewrite app_nth2 by lia. rewrite Hl.
      destruct (q - length (sy_prods s))%nat as [|k]; cbn in *; [injection Hq as <-; apply Hv; exact G|destruct k; discriminate].
  - destruct (get (sy_prods s) p) as [n|] eqn:G; injection H as <- <-; cbn [tally]; auto.
  - destruct (sy_guards s); injection H as <- <-; cbn [tally]; auto.
  - destruct (get (sy_prods s) p) as [n|] eqn:G; injection H as <- <-; cbn [tally]; auto.
  - destruct (get (sy_cons s) c) as [n|] eqn:G; [destruct (frame_read _ _ _)|]; injection H as <- <-; cbn [tally]; auto.
  - destruct (get (sy_cons s) c) as [n|] eqn:G; [destruct (frame_read_all _ _ _) as [[]|]|]; injection H as <- <-; cbn [tally]; auto.
  - destruct (get (sy_cons s) c) as [n|] eqn:G; injection H as <- <-; cbn [tally]; auto.
  - destruct (get (sy_cons s) c) as [n|] eqn:G; injection H as <- <-; cbn [tally]; auto.
Qed.

Lemma tinv_run w size ops : tinv size (fst (frun w (fsys_new size) ops)) (snd (frun w (fsys_new size) ops)).
Proof.
  apply frun_ind with (I := tinv size).
  - split; [reflexivity|]. split; [reflexivity|]. intros [|[|p]] v Hv; cbn in Hv; try discriminate. injection Hv as <-. reflexivity.
  - intros; eapply tinv_step; eauto.
Qed.

Lemma each_write w size ops p c s' x :
  let tr := snd (frun w (fsys_new size) ops) in
  fstep w (fst (frun w (fsys_new size) ops)) (FWrite p c) = (s', x) -> x <> FBad ->
  (x = FUnit /\ nth p (attempted tr) 0 + len c <= size mod 2 ^ w /\ verdict tr = None) \/
  (x = FPanic /\ (size mod 2 ^ w < nth p (attempted tr) 0 + len c \/ verdict tr <> None)).
Proof.
  intros tr E Hb. destruct (tinv_run w size ops) as (Hz & _ & P). fold tr in P.
  pose proof (finv_run w size ops) as F. fold tr in F.
  unfold fstep in E. destruct (get _ p) as [n|] eqn:G; [|injection E; congruence].
  specialize (P _ _ G). unfold frame_write in E. cbv zeta in E. rewrite Hz, P in E.
  rewrite (fi_closed _ _ F) in E.
  destruct (N.leb_spec (nth p (attempted tr) 0 + len c) (size mod 2 ^ w)); [|injection E as _ <-; auto].
  destruct (verdict tr); injection E as _ <-; [right; split; [reflexivity|right; discriminate]|auto].
Qed.
Lemma each_finish w size ops p s' x :
  let tr := snd (frun w (fsys_new size) ops) in
  fstep w (fst (frun w (fsys_new size) ops)) (FFinish p) = (s', x) -> x <> FBad ->
  x = if nth p (attempted tr) 0 =? size mod 2 ^ w then FUnit else FPanic.
Proof.
  intros tr E Hb. destruct (tinv_run w size ops) as (Hz & _ & P). fold tr in P.
  unfold fstep in E. destruct (get _ p) as [n|] eqn:G; [|injection E; congruence].
  specialize (P _ _ G). unfold frame_finish in E. rewrite Hz, P in E. destruct (_ =? _); injection E as _ <-; reflexivity.
Qed.
