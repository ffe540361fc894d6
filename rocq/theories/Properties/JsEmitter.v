(** C195-C198: volume, mute and pause of the audio of a web page. *)
From Coq Require Import NArith List Bool Lia.
From Verif.Model Require Import JsEmitter.
From Verif.Spec Require Import JsEmitterSpec.
From Verif.Proofs Require Import JsEmitterP.
Import ListNotations.
Open Scope N_scope.

Definition plain : eprops := EProps None None None.

(** ** C195: muted means that the volume is zero *)
Theorem C195_muted : forall p e ops, let s := m_run (emitter_new p e) ops in m_muted s = true <-> m_volume s = 0.
Proof. exact muted_iff. Qed.
Print Assumptions C195_muted.
(** The effects come to rest: more rounds than 3 change nothing. *)
Theorem C195_settled : forall p e ops v f, let s := m_run (emitter_new p e) ops in
  let s1 := Emitter v (m_muted s) (m_paused s) (m_enabled s) (m_unmute s) in volume_effect (S (S f)) s1 = volume_effect 3 s1.
Proof. exact enough. Qed.
Print Assumptions C195_settled.
Example C195_meets : map (fun ops => let s := m_run (emitter_new plain false) ops in (m_muted s, m_volume s))
  [[]; [MMuted true]; [MVolume 0]; [MVolume 0; MMuted false]; [MVolume 80; MMuted true; MMuted false]] =
  [(false, 50); (true, 0); (true, 0); (false, 50); (false, 80)].
Proof. reflexivity. Qed.

(** ** C196: the volume is the one that was set *)
(** If it is not muted. *)
Theorem C196_partial : forall p e ops v, let s := m_run (emitter_new p e) ops in m_muted s = false -> v <> 0 ->
  m_volume (m_run s [MVolume v]) = v /\ m_muted (m_run s [MVolume v]) = false.
Proof. exact set_volume. Qed.
Print Assumptions C196_partial.
Example C196_meets : m_muted (m_run (emitter_new plain false) [MMuted true; MMuted false]) = false. Proof. reflexivity. Qed.
(** False: the volume given to the constructor is not used. *)
Theorem C196_new_refuted : exists p v, p_volume p = Some v /\ p_muted p = None /\ v <> 0 /\ m_volume (emitter_new p false) <> v.
Proof. exists (EProps (Some 80) None None), 80. repeat split; discriminate. Qed.
Print Assumptions C196_new_refuted.
(** False: a volume that is set while it is muted is replaced by the one before. *)
Theorem C196_refuted : exists p ops v, v <> 0 /\ m_volume (m_run (emitter_new p false) (ops ++ [MVolume v])) = 50 /\ v = 10.
Proof. exists plain, [MMuted true], 10. repeat split. discriminate. Qed.
Print Assumptions C196_refuted.

(** ** C197: after unmuting the volume is as before *)
Theorem C197_back : forall p e ops x, let s := m_run (emitter_new p e) ops in m_muted s = false -> only_pauses x ->
  m_volume (m_run s (MMuted true :: x)) = 0 /\ m_volume (m_run s (MMuted true :: x ++ [MMuted false])) = m_volume s.
Proof. exact back. Qed.
Print Assumptions C197_back.
Example C197_meets : m_muted (m_run (emitter_new plain false) [MVolume 80]) = false /\ only_pauses [MPaused true; MPaused false].
Proof. split; [reflexivity|]. intros o [<-|[<-|[]]]; eauto. Qed.

(** ** C198: audio is downloaded unless it is paused *)
(** As long as nothing is muted or unmuted. *)
Theorem C198_partial : forall p e ops, (forall a b, ops = a ++ b -> m_muted (m_run (emitter_new p e) a) = m_muted (emitter_new p e)) ->
  let s := m_run (emitter_new p e) ops in m_enabled s = negb (m_paused s).
Proof. exact follows. Qed.
Print Assumptions C198_partial.
Example C198_meets : let ops := [MPaused true; MVolume 80] in
  forall a b, ops = a ++ b -> m_muted (m_run (emitter_new plain false) a) = m_muted (emitter_new plain false).
Proof. intros ops a b E. unfold ops in E. destruct a as [|x [|y [|z a]]]; cbn in E; inversion E; subst; try reflexivity; discriminate. Qed.
(** False: unmuting what is paused starts the download, and muting stops it although it is not paused. *)
Theorem C198_refuted : exists p ops, let s := m_run (emitter_new p false) ops in m_paused s = true /\ m_enabled s = true.
Proof. exists (EProps None (Some true) None), [MMuted false]. split; reflexivity. Qed.
Print Assumptions C198_refuted.
Theorem C198_muted_refuted : exists p ops, let s := m_run (emitter_new p false) ops in m_paused s = false /\ m_enabled s = false.
Proof. exists plain, [MMuted true]. split; reflexivity. Qed.
Print Assumptions C198_muted_refuted.
