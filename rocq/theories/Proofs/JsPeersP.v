From Coq Require Import Arith List Bool Lia.
From Verif.Model Require Import JsPeers.
From Verif.Spec Require Import JsPeersSpec.
Import ListNotations.

Lemma in_del h k l : In k (del h l) <-> In k l /\ k <> h.
Proof. unfold del. rewrite filter_In, negb_true_iff, Nat.eqb_neq. tauto. Qed.
Lemma in_put h k l : In k (put h l) <-> k = h \/ In k l.
Proof. unfold put. cbn. rewrite in_del. destruct (Nat.eq_dec k h); intuition. Qed.
Lemma upd_nth l : forall i j p, nth_error (upd l i p) j = if i =? j then match nth_error l j with Some _ => Some p | None => None end else nth_error l j.
Proof. induction l as [|x l IH]; intros [|i] [|j] p; cbn; auto; destruct (i =? j); auto. Qed.
Lemma upd_len l : forall i p, length (upd l i p) = length l.
Proof. induction l as [|x l IH]; intros [|i] p; cbn; auto. Qed.

Lemma start_open h s : p_open (start h s) = p_open s.
Proof. destruct h; reflexivity. Qed.
Lemma stop_open h s : p_open (stop h s) = p_open s.
Proof. destruct h; reflexivity. Qed.
Lemma start_cat h s k : In k (p_cat (start h s)) <-> h = Some k \/ In k (p_cat s).
Proof. destruct h; cbn [start p_cat]; [rewrite in_put|]; intuition congruence. Qed.
Lemma stop_cat h s k : In k (p_cat (stop h s)) <-> h <> Some k /\ In k (p_cat s).
Proof. destruct h; cbn [stop p_cat]; [rewrite in_del|]; intuition congruence. Qed.
Lemma start_tracks h s k : In k (p_tracks (start h s)) <-> h = Some k \/ In k (p_tracks s).
Proof. destruct h; cbn [start p_tracks]; [rewrite in_put|]; intuition congruence. Qed.
Lemma stop_tracks h s k : In k (p_tracks (stop h s)) <-> h <> Some k /\ In k (p_tracks s).
Proof. destruct h; cbn [stop p_tracks]; [rewrite in_del|]; intuition congruence. Qed.

Lemma run_snoc ops o : p_run (ops ++ [o]) = p_step (p_run ops) o.
Proof. unfold p_run. rewrite fold_left_app. reflexivity. Qed.

(** The model's peers are those of the page *)
Lemma sync ops : length (p_open (p_run ops)) = made (rev ops) /\ forall i f c, opened ops i f c <-> nth_error (p_open (p_run ops)) i = Some (Some (f, c)).
Proof.
  unfold opened. induction ops as [|o ops [L IH]] using rev_ind; [split; [reflexivity|]; intros [|i] f c; cbn; split; [tauto|discriminate|tauto|discriminate]|].
  rewrite run_snoc, rev_unit. set (s := p_run ops) in *. destruct o as [h|j h|j]; cbn [p_step is_open made].
  - rewrite !start_open. cbn [p_open]. split; [rewrite app_length; cbn; lia|]. intros i f c. rewrite IH, <- L. split.
    + intros [(-> & -> & ->)|H]; [rewrite nth_error_app2, Nat.sub_diag by lia; reflexivity|]. rewrite nth_error_app1; [exact H|]. apply nth_error_Some. congruence.
    + intros H. destruct (Nat.lt_ge_cases i (length (p_open s))) as [Hl|Hl]; [rewrite nth_error_app1 in H by exact Hl; auto|].
      rewrite nth_error_app2 in H by exact Hl. destruct (i - length (p_open s)) as [|[|?]] eqn:E; cbn in H; try discriminate. injection H as <- <-. left. split; [lia|auto].
  - destruct (nth_error (p_open s) j) as [[[f0 c0]|]|] eqn:E.
    + rewrite start_open, stop_open. cbn [p_open]. split; [rewrite upd_len; exact L|]. intros i f c. rewrite upd_nth. destruct (Nat.eqb_spec j i) as [->|N]; [|apply IH].
      rewrite E. split; [intros [-> [c' H]]; apply IH in H; congruence|intros H; injection H as <- <-; split; [reflexivity|exists c0; apply IH, E]].
    + split; [exact L|]. intros i f c. destruct (Nat.eqb_spec j i) as [->|N]; [|apply IH]. split; [intros [-> [c' H]]; apply IH in H; congruence|congruence].
    + split; [exact L|]. intros i f c. destruct (Nat.eqb_spec j i) as [->|N]; [|apply IH]. split; [intros [-> [c' H]]; apply IH in H; congruence|congruence].
  - destruct (nth_error (p_open s) j) as [[[f0 c0]|]|] eqn:E.
    + rewrite !stop_open. cbn [p_open]. split; [rewrite upd_len; exact L|]. intros i f c. rewrite upd_nth. destruct (Nat.eqb_spec j i) as [->|N]; [|apply IH].
      rewrite E. split; [tauto|discriminate].
    + split; [exact L|]. intros i f c. destruct (Nat.eqb_spec j i) as [->|N]; [|apply IH]. split; [tauto|congruence].
    + split; [exact L|]. intros i f c. destruct (Nat.eqb_spec j i) as [->|N]; [|apply IH]. split; [tauto|congruence].
Qed.

Definition Held (s : peers) (h : nat) : Prop := exists i f, nth_error (p_open s) i = Some (Some (f, Some h)).
Lemma wanted_held ops h : wanted ops h <-> Held (p_run ops) h.
Proof. unfold wanted, Held. split; intros (i & f & H); exists i, f; apply (proj2 (sync ops)), H. Qed.

Lemma new_held s h k : Held (p_step s (PNew h)) k <-> h = Some k \/ Held s k.
Proof.
  unfold Held. cbn [p_step]. rewrite !start_open. cbn [p_open]. split.
  - intros (i & f & H). destruct (Nat.lt_ge_cases i (length (p_open s))) as [Hl|Hl]; [rewrite nth_error_app1 in H by exact Hl; right; eauto|].
    rewrite nth_error_app2 in H by exact Hl. destruct (i - length (p_open s)) as [|[|?]]; cbn in H; try discriminate. left. congruence.
  - intros [->|(i & f & H)]; [exists (length (p_open s)), (Some k); rewrite nth_error_app2, Nat.sub_diag by lia; reflexivity|].
    exists i, f. rewrite nth_error_app1; [exact H|]. apply nth_error_Some. congruence.
Qed.

Lemma listed ops : always apart ops -> forall h, (In h (p_cat (p_run ops)) <-> wanted ops h) /\ (In h (p_tracks (p_run ops)) <-> wanted ops h).
Proof.
  induction ops as [|o ops IH] using rev_ind; intros A h.
  { rewrite wanted_held. split; (split; [intros []|intros ([|i] & f & H); discriminate]). }
  assert (A' : always apart ops) by (intros a b ->; apply (A a (b ++ [o])); rewrite <- app_assoc; reflexivity).
  assert (B : apart ops) by (apply (A ops [o]); reflexivity).
  specialize (IH A'). rewrite wanted_held in *. pose proof (fun k => wanted_held ops k) as W. pose proof (proj2 (sync ops)) as Y. rewrite run_snoc. set (s := p_run ops) in *.
  assert (C : forall k, In k (p_cat s) <-> Held s k) by (intros k; rewrite <- W; apply IH).
  assert (T : forall k, In k (p_tracks s) <-> Held s k) by (intros k; rewrite <- W; apply IH). clear IH.
  destruct o as [h0|j h0|j].
  - rewrite new_held. cbn [p_step]. rewrite !start_cat, !start_tracks. cbn [p_cat p_tracks]. rewrite C, T. tauto.
  - cbn [p_step]. destruct (nth_error (p_open s) j) as [[[f0 c0]|]|] eqn:E; [|auto|auto].
    assert (X : Held (start h0 (stop c0 (Peers (upd (p_open s) j (Some (f0, h0))) (p_cat s) (p_tracks s)))) h <-> h0 = Some h \/ c0 <> Some h /\ Held s h).
    { unfold Held. rewrite start_open, stop_open. cbn [p_open]. split.
      - intros (i & f & H). rewrite upd_nth in H. destruct (Nat.eqb_spec j i) as [->|N]; [rewrite E in H; left; congruence|]. right. split; [|eauto].
        apply (B j i f0 c0 f h N); apply Y; assumption.
      - intros [->|[N (i & f & H)]]; [exists j, f0; rewrite upd_nth, Nat.eqb_refl, E; reflexivity|]. exists i, f. rewrite upd_nth.
        destruct (Nat.eqb_spec j i) as [->|N']; [congruence|exact H]. }
    rewrite X, start_cat, start_tracks, stop_cat, stop_tracks. cbn [p_cat p_tracks]. rewrite C, T. tauto.
  - cbn [p_step]. destruct (nth_error (p_open s) j) as [[[f0 c0]|]|] eqn:E; [|auto|auto].
    assert (X : Held (stop f0 (stop c0 (Peers (upd (p_open s) j None) (p_cat s) (p_tracks s)))) h <-> f0 <> Some h /\ c0 <> Some h /\ Held s h).
    { unfold Held. rewrite !stop_open. cbn [p_open]. split.
      - intros (i & f & H). rewrite upd_nth in H. destruct (Nat.eqb_spec j i) as [->|N]; [rewrite E in H; discriminate|].
        destruct (B j i f0 c0 f h N) as [B1 B2]; [apply Y; assumption|apply Y; assumption|]. eauto.
      - intros (N1 & N2 & (i & f & H)). exists i, f. rewrite upd_nth. destruct (Nat.eqb_spec j i) as [->|N']; [congruence|exact H]. }
    rewrite X, !stop_cat, !stop_tracks. cbn [p_cat p_tracks]. rewrite C, T. tauto.
Qed.
(** Nothing is listed that nobody wants, whatever the handles *)
Lemma no_more ops h : In h (p_cat (p_run ops)) -> wanted ops h.
Proof.
  rewrite wanted_held. induction ops as [|o ops IH] using rev_ind; [intros []|]. rewrite run_snoc. set (s := p_run ops) in *. destruct o as [h0|j h0|j].
  - rewrite new_held. cbn [p_step]. rewrite !start_cat. cbn [p_cat]. tauto.
  - cbn [p_step]. destruct (nth_error (p_open s) j) as [[[f0 c0]|]|] eqn:E; [|auto|auto]. rewrite start_cat, stop_cat. unfold Held. rewrite start_open, stop_open. cbn [p_open p_cat].
    intros [->|[N H]]; [exists j, f0; rewrite upd_nth, Nat.eqb_refl, E; reflexivity|]. destruct (IH H) as (i & f & K). exists i, f. rewrite upd_nth.
    destruct (Nat.eqb_spec j i) as [->|N']; [congruence|exact K].
  - cbn [p_step]. destruct (nth_error (p_open s) j) as [[[f0 c0]|]|] eqn:E; [|auto|auto]. rewrite !stop_cat. unfold Held. rewrite !stop_open. cbn [p_open p_cat].
    intros (N1 & N2 & H). destruct (IH H) as (i & f & K). exists i, f. rewrite upd_nth. destruct (Nat.eqb_spec j i) as [->|N']; [congruence|exact K].
Qed.
