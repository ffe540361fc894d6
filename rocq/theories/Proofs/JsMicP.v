From Coq Require Import List Bool Arith.
From Verif.Model Require Import JsMic.
From Verif.Spec Require Import JsMicSpec.
Import ListNotations.

Record Inv (s : mic) : Prop := { v_root : m_root s = None; v_loads : m_loads s = []; v_track : m_track s = None }.
Definition mute (l : list mev) : Prop := Forall (fun e => match e with EOn _ | EMedia _ => True | _ => False end) l.

Lemma step_inv s o : Inv s -> Inv (fst (m_step s o)) /\ mute (snd (m_step s o)).
Proof.
  destruct s as [en me root asked loads tr n]. intros [H1 H2 H3]. cbn in *. subst.
  destruct o as [b|x|k]; cbn [m_step m_loads].
  - unfold run_both, run_worklet. cbn. destruct asked; cbn; rewrite ?andb_false_r; cbn; unfold run_encoder; cbn; rewrite ?andb_false_r; cbn; (split; [split; reflexivity|repeat constructor]).
  - unfold run_both, run_worklet. cbn. destruct asked; cbn; rewrite ?andb_false_r; cbn; unfold run_encoder; cbn; rewrite ?andb_false_r; cbn; (split; [split; reflexivity|repeat constructor]).
  - destruct k; cbn; (split; [split; reflexivity|constructor]).
Qed.
Lemma run_inv ops : forall s, Inv s -> mute (snd (m_run s ops)).
Proof.
  induction ops as [|o ops IH]; intros s I; [constructor|]. cbn [m_run]. destruct (step_inv s o I) as [J M]. destruct (m_step s o) as [s1 a]. cbn [fst snd] in J, M.
  specialize (IH _ J). destruct (m_run s1 ops) as [s2 b]. cbn in *. unfold mute in *. apply Forall_app. split; assumption.
Qed.
Lemma never ops : ~ published (snd (m_run m_init ops)).
Proof.
  intros [n [H _]]. assert (M : mute (snd (m_run m_init ops))) by (apply run_inv; split; reflexivity).
  unfold mute in M. rewrite Forall_forall in M. destruct (M _ H).
Qed.
Lemma never_waits ops : idle (snd (m_run m_init ops)).
Proof.
  intros k H. assert (M : mute (snd (m_run m_init ops))) by (apply run_inv; split; reflexivity).
  unfold mute in M. rewrite Forall_forall in M. destruct (M _ H).
Qed.
