From Coq Require Import List Bool Arith.
From Verif.Model Require Import JsMic.
From Verif.Spec Require Import JsMicSpec.
From Verif.Proofs Require Import JsMicP.
Import ListNotations.

(** * C203: a microphone that is enabled is published

    The claim: whenever audio is enabled, a microphone has been given, and nothing is being waited for, an audio track is published and in
    the catalog.  It is false, always: the worklet is only made when there is one. *)
Theorem C203_refuted : exists ops, let l := snd (m_run m_init ops) in
  enabled l = true /\ microphone l = Some 7 /\ idle l /\ ~ published l.
Proof. exists [MEnable true; MMedia (Some 7)]. cbn zeta. split; [reflexivity|]. split; [reflexivity|]. split; [apply never_waits|apply never]. Qed.
Print Assumptions C203_refuted.

(** No execution publishes audio, and none waits for anything. *)
Theorem C203_never : forall ops, ~ published (snd (m_run m_init ops)).
Proof. exact never. Qed.
Print Assumptions C203_never.
Theorem C203_never_waits : forall ops, idle (snd (m_run m_init ops)).
Proof. exact never_waits. Qed.
Print Assumptions C203_never_waits.

(** The claims are not empty: with a worklet to begin with, the same steps publish. *)
Example C203_otherwise : published (snd (m_run (Mic false None (Some 0) false [] None 0) [MEnable true; MMedia (Some 7)])).
Proof. exists 0. split; [cbn; tauto|]. cbn. intuition discriminate. Qed.
