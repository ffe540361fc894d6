(** js/hang/src/watch/audio.ts:22-91: volume, mute and pause of the audio of a web page.

    Volumes are natural numbers (the code: 0 to 1; here 100 is 1).  Left out: the GainNode, which follows the volume (64-81), and [close].
    Effects of solid-js run when they are made, and again after a signal that they read has got another value; what they set is seen by
    other effects when they are done. *)
From Coq Require Import NArith List Bool.
Import ListNotations.
Open Scope N_scope.

(** audio.ts:15-19 *)
Record eprops := EProps { p_volume : option N; p_muted : option bool; p_paused : option bool }.
(** audio.ts:23-34; [m_enabled]: [source.enabled] *)
Record emitter := Emitter { m_volume : N; m_muted : bool; m_paused : bool; m_enabled : bool; m_unmute : N }.

(** audio.ts:46-56 *)
Definition muted_effect (s : emitter) : emitter :=
  if m_muted s
  then Emitter 0 true (m_paused s) false (if m_volume s =? 0 then 50 else m_volume s)
  else Emitter (m_unmute s) false (m_paused s) true (m_unmute s).
(** audio.ts:59-62.  [fuel]: how many more effects may run *)
Fixpoint volume_effect (fuel : nat) (s : emitter) : emitter :=
  match fuel with
  | O => s
  | S fuel =>
    let m := m_volume s =? 0 in
    if Bool.eqb m (m_muted s) then s
    else
      let s1 := muted_effect (Emitter (m_volume s) m (m_paused s) (m_enabled s) (m_unmute s)) in
      if m_volume s1 =? m_volume s then s1 else volume_effect fuel s1
  end.
(** audio.ts:83-85 *)
Definition paused_effect (s : emitter) : emitter := Emitter (m_volume s) (m_muted s) (m_paused s) (negb (m_paused s)) (m_unmute s).

Definition or_else {A} (o : option A) (d : A) : A := match o with Some x => x | None => d end.
(** audio.ts:39-86: the effects run one after the other.  [fuel] 3 is enough (see [C195_settled]). *)
Definition emitter_new (p : eprops) (enabled : bool) : emitter :=
  let muted := or_else (p_muted p) false in
  let s := Emitter (or_else (p_volume p) 50) muted (or_else (p_paused p) muted) enabled 50 in
  paused_effect (volume_effect 3 (muted_effect s)).

Inductive mop := MVolume (v : N) | MMuted (b : bool) | MPaused (b : bool).
Definition m_step (s : emitter) (o : mop) : emitter :=
  match o with
  | MVolume v =>
    if v =? m_volume s then s else volume_effect 3 (Emitter v (m_muted s) (m_paused s) (m_enabled s) (m_unmute s))
  | MMuted b =>
    if Bool.eqb b (m_muted s) then s
    else
      let s1 := muted_effect (Emitter (m_volume s) b (m_paused s) (m_enabled s) (m_unmute s)) in
      if m_volume s1 =? m_volume s then s1 else volume_effect 3 s1
  | MPaused b =>
    if Bool.eqb b (m_paused s) then s else paused_effect (Emitter (m_volume s) (m_muted s) b (m_enabled s) (m_unmute s))
  end.
Definition m_run (s : emitter) (ops : list mop) : emitter := fold_left m_step ops s.
