From Coq Require Import NArith List Bool Lia.
From Verif.Model Require Import JsEmitter.
From Verif.Spec Require Import JsEmitterSpec.
Import ListNotations.
Open Scope N_scope.

Definition minv (s : emitter) : Prop := (m_muted s = true <-> m_volume s = 0) /\ m_unmute s <> 0.

Lemma eqb0 : forall v, (v =? 0) = true <-> v = 0. Proof. intro. apply N.eqb_eq. Qed.

(** After the effects: whatever the volume and the mute were *)
Lemma settle : forall f s, m_unmute s <> 0 -> minv (volume_effect (S (S f)) s) /\ volume_effect (S (S f)) s = volume_effect 2 s.
Proof.
  intros f [v m p e u] U. cbn [m_unmute] in U. unfold minv. cbn -[N.eqb]. destruct (N.eqb_spec v 0) as [->|V].
  - destruct m; cbn -[N.eqb]; rewrite ?N.eqb_refl; cbn; intuition (try lia; try discriminate).
  - assert (Q : (v =? 0) = false) by now apply N.eqb_neq. assert (R : (u =? 0) = false) by now apply N.eqb_neq.
    destruct m; cbn -[N.eqb]; rewrite ?Q, ?R; cbn -[N.eqb].
    + destruct (N.eqb_spec u v) as [->|W]; cbn -[N.eqb]; rewrite ?R; cbn; intuition (try lia; try discriminate; try congruence).
    + intuition (try lia; try discriminate; try congruence).
Qed.

Lemma muted_ok : forall s, m_unmute s <> 0 -> minv (muted_effect s).
Proof.
  intros [v m p e u] U. cbn in U. unfold minv, muted_effect. cbn -[N.eqb]. destruct m; cbn -[N.eqb].
  - destruct (N.eqb_spec v 0); intuition (try lia; try discriminate; try congruence).
  - intuition (try lia; try discriminate; try congruence).
Qed.
Lemma settled : forall f s, minv s -> volume_effect f s = s.
Proof.
  intros [|f] s [M _]; cbn; [reflexivity|]. destruct (N.eqb_spec (m_volume s) 0) as [E|E].
  - apply M in E. rewrite E. reflexivity.
  - destruct (m_muted s); [exfalso; apply E, M; reflexivity|reflexivity].
Qed.

Lemma new_ok : forall p e, minv (emitter_new p e).
Proof.
  intros p e. unfold emitter_new. set (s := Emitter _ _ _ _ _). assert (I : minv (muted_effect s)) by (apply muted_ok; discriminate).
  rewrite settled by exact I. exact I.
Qed.
Lemma step_ok : forall s o, minv s -> minv (m_step s o).
Proof.
  intros s o I. destruct o as [v|b|b]; cbn [m_step].
  - destruct (v =? m_volume s); [exact I|]. apply (settle 1). exact (proj2 I).
  - destruct (Bool.eqb b (m_muted s)); [exact I|]. set (s1 := Emitter _ _ _ _ _). assert (I1 : minv (muted_effect s1)) by (apply muted_ok; exact (proj2 I)).
    rewrite settled by exact I1. destruct (_ =? _); exact I1.
  - destruct (Bool.eqb b (m_paused s)); exact I.
Qed.
Lemma run_ok : forall ops s, minv s -> minv (m_run s ops).
Proof. induction ops as [|o ops IH]; intros s I; [exact I|]. cbn. apply IH, step_ok, I. Qed.

Lemma muted_iff : forall p e ops, let s := m_run (emitter_new p e) ops in m_muted s = true <-> m_volume s = 0.
Proof. intros p e ops. apply run_ok, new_ok. Qed.

(** More rounds change nothing. *)
Lemma enough : forall p e ops v f, let s := m_run (emitter_new p e) ops in let s1 := Emitter v (m_muted s) (m_paused s) (m_enabled s) (m_unmute s) in
  volume_effect (S (S f)) s1 = volume_effect 3 s1.
Proof.
  intros p e ops v f s s1. assert (U : m_unmute s1 <> 0) by (apply (run_ok ops _ (new_ok p e))).
  destruct (settle f s1 U) as [_ ->]. destruct (settle 1 s1 U) as [_ E]. symmetry. exact E.
Qed.

Lemma set_volume : forall p e ops v, let s := m_run (emitter_new p e) ops in m_muted s = false -> v <> 0 -> m_volume (m_run s [MVolume v]) = v /\ m_muted (m_run s [MVolume v]) = false.
Proof.
  intros p e ops v s M V. cbn [m_run fold_left m_step]. destruct (N.eqb_spec v (m_volume s)) as [->|N]; [auto|].
  rewrite settled; [auto|]. split; cbn; [rewrite M; split; [discriminate|contradiction]|]. apply (run_ok ops _ (new_ok p e)).
Qed.

Lemma pauses : forall ops s, only_pauses ops -> m_volume (m_run s ops) = m_volume s /\ m_muted (m_run s ops) = m_muted s /\ m_unmute (m_run s ops) = m_unmute s.
Proof.
  induction ops as [|o ops IH]; intros s H; [auto|]. destruct (H o (or_introl eq_refl)) as (b & ->).
  assert (H' : only_pauses ops) by (intros o D; apply H; right; exact D).
  destruct (IH (m_step s (MPaused b)) H') as (A & B & C). cbn [m_run fold_left]. change (fold_left m_step ops) with (fun s => m_run s ops). cbn beta.
  rewrite A, B, C. cbn [m_step]. destruct (Bool.eqb b (m_paused s)); auto.
Qed.

Lemma run_app : forall a b s, m_run s (a ++ b) = m_run (m_run s a) b.
Proof. intros. unfold m_run. apply fold_left_app. Qed.

Lemma back : forall p e ops x, let s := m_run (emitter_new p e) ops in m_muted s = false -> only_pauses x ->
  m_volume (m_run s (MMuted true :: x)) = 0 /\ m_volume (m_run s (MMuted true :: x ++ [MMuted false])) = m_volume s.
Proof.
  intros p e ops x s M X. assert (I : minv s) by apply run_ok, new_ok.
  assert (V : m_volume s <> 0) by (intro E; apply (proj1 I) in E; congruence).
  assert (E1 : m_step s (MMuted true) = Emitter 0 true (m_paused s) false (m_volume s)).
  { cbn [m_step]. rewrite M. cbn [Bool.eqb]. set (s0 := Emitter _ _ _ _ _). assert (I1 : minv (muted_effect s0)) by (apply muted_ok; exact (proj2 I)).
    rewrite settled by exact I1. assert (Q : muted_effect s0 = Emitter 0 true (m_paused s) false (m_volume s)).
    { unfold muted_effect, s0. cbn -[N.eqb]. apply N.eqb_neq in V. now rewrite V. }
    rewrite Q. now destruct (_ =? _). }
  change (MMuted true :: x ++ [MMuted false]) with ((MMuted true :: x) ++ [MMuted false]). rewrite run_app.
  change (m_run s (MMuted true :: x)) with (m_run (m_step s (MMuted true)) x). rewrite E1.
  set (s1 := Emitter 0 true (m_paused s) false (m_volume s)). destruct (pauses x s1 X) as (A & B & C). cbn in A, B, C.
  split; [exact A|]. set (s2 := m_run s1 x) in *. cbn [m_run fold_left m_step]. rewrite B. cbn [Bool.eqb].
  set (s0 := Emitter _ _ _ _ _). assert (I1 : minv (muted_effect s0)) by (apply muted_ok; cbn; congruence). rewrite settled by exact I1.
  assert (Q : m_volume (muted_effect s0) = m_volume s) by (cbn; exact C). destruct (_ =? _); exact Q.
Qed.

(** Downloading follows pausing as long as nothing is muted or unmuted. *)
Lemma follows_step : forall s o, minv s -> m_enabled s = negb (m_paused s) -> m_muted (m_step s o) = m_muted s -> m_enabled (m_step s o) = negb (m_paused (m_step s o)).
Proof.
  intros s o I E M. destruct o as [v|b|b]; cbn [m_step] in *.
  - destruct (N.eqb_spec v (m_volume s)) as [Q|Q]; [exact E|]. set (s1 := Emitter v (m_muted s) (m_paused s) (m_enabled s) (m_unmute s)) in *.
    destruct (settle 1 s1 (proj2 I)) as [J _].
    assert (K : minv s1).
    { split; [|exact (proj2 I)]. cbn. destruct (N.eqb_spec v 0) as [->|V].
      - split; [reflexivity|]. intros _. destruct (m_muted s) eqn:Ms; [reflexivity|]. exfalso.
        assert (m_muted (volume_effect 3 s1) = true); [|congruence]. unfold s1. cbn -[N.eqb]. reflexivity.
      - split; [|contradiction]. intro Ms. exfalso. assert (m_muted (volume_effect 3 s1) = false); [|congruence]. apply N.eqb_neq in V.
        assert (U : m_unmute s <> 0) by exact (proj2 I). apply N.eqb_neq in U. unfold s1. rewrite Ms. cbn -[N.eqb]. rewrite V. cbn -[N.eqb].
        destruct (m_unmute s =? v); cbn -[N.eqb]; rewrite ?U; reflexivity. }
    rewrite settled by exact K. exact E.
  - destruct (Bool.eqb b (m_muted s)) eqn:Q; [exact E|]. exfalso. set (s0 := Emitter _ _ _ _ _) in *.
    assert (I1 : minv (muted_effect s0)) by (apply muted_ok; exact (proj2 I)). rewrite settled in M by exact I1.
    assert (m_muted (muted_effect s0) = b) by (unfold muted_effect, s0; cbn; now destruct b).
    apply eqb_false_iff in Q. destruct (m_volume (muted_effect s0) =? m_volume s); congruence.
  - destruct (Bool.eqb b (m_paused s)); [exact E|reflexivity].
Qed.

Lemma follows : forall p e ops, (forall a b, ops = a ++ b -> m_muted (m_run (emitter_new p e) a) = m_muted (emitter_new p e)) ->
  let s := m_run (emitter_new p e) ops in m_enabled s = negb (m_paused s).
Proof.
  intros p e ops. induction ops as [|o ops IH] using rev_ind; intros H; [reflexivity|]. cbn zeta in *.
  rewrite run_app. cbn [m_run fold_left]. apply follows_step.
  - apply run_ok, new_ok.
  - apply IH. intros a b E. eapply (H a (b ++ [o])). rewrite E, app_assoc. reflexivity.
  - rewrite (H ops [o] eq_refl). specialize (H (ops ++ [o]) [] ltac:(now rewrite app_nil_r)). rewrite run_app in H. exact H.
Qed.
