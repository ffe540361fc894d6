(** js/hang/src/publish/audio.ts:41-148, 208-210: how a web page comes to publish its microphone.

    Modelled: the signals [enabled], [media] (the track of a microphone, by number) and [root] (the worklet that collects samples), the two
    effects, and the promise of [addModule] (91-94).  Simplified: the worklet is what request it came from; a rerun effect first runs its
    cleanups; the encoder itself is left out: [EPub] is the insertion of a track (116) with its entry in the catalog (148). *)
From Coq Require Import List Bool Arith.
Import ListNotations.

Record mic := Mic { m_en : bool; m_media : option nat; m_root : option nat; m_asked : bool; m_loads : list bool; m_track : option nat; m_next : nat }.
Definition m_init : mic := Mic false None None false [] None 0.

Inductive mop := MEnable (b : bool) | MMedia (x : option nat) | MLoaded (k : nat).
Inductive mev := EOn (b : bool) | EMedia (x : option nat) | ELoad (k : nat) | ELoaded (k : nat) | EPub (n : nat) | EUnpub (n : nat).

Definition some {A} (o : option A) : bool := match o with Some _ => true | None => false end.

(** audio.ts:70-102; line 81 reads the worklet that lines 91-94 are to make *)
Definition run_worklet (s : mic) : mic * list mev :=
  let root := if m_asked s then None else m_root s in
  if m_en s && some (m_media s) && some root
  then (Mic (m_en s) (m_media s) root true (m_loads s ++ [true]) (m_track s) (m_next s), [ELoad (length (m_loads s))])
  else (Mic (m_en s) (m_media s) root false (m_loads s) (m_track s) (m_next s), []).
(** audio.ts:104-149 *)
Definition run_encoder (s : mic) : mic * list mev :=
  let e1 := match m_track s with Some n => [EUnpub n] | None => [] end in
  if m_en s && some (m_root s) && some (m_media s)
  then (Mic (m_en s) (m_media s) (m_root s) (m_asked s) (m_loads s) (Some (m_next s)) (S (m_next s)), e1 ++ [EPub (m_next s)])
  else (Mic (m_en s) (m_media s) (m_root s) (m_asked s) (m_loads s) None (m_next s), e1).
Definition run_both (s : mic) : mic * list mev :=
  let (s, a) := run_worklet s in let (s, b) := run_encoder s in (s, a ++ b).

Fixpoint off (l : list bool) (k : nat) : list bool :=
  match l, k with [], _ => [] | _ :: l, O => false :: l | b :: l, S k => b :: off l k end.

Definition m_step (s : mic) (o : mop) : mic * list mev :=
  match o with
  | MEnable b => let (s', e) := run_both (Mic b (m_media s) (m_root s) (m_asked s) (m_loads s) (m_track s) (m_next s)) in (s', EOn b :: e)
  | MMedia x => let (s', e) := run_both (Mic (m_en s) x (m_root s) (m_asked s) (m_loads s) (m_track s) (m_next s)) in (s', EMedia x :: e)
  | MLoaded k =>
    match nth_error (m_loads s) k with
    | Some true =>
      let (s', e) := run_both (Mic (m_en s) (m_media s) (Some k) (m_asked s) (off (m_loads s) k) (m_track s) (m_next s)) in (s', ELoaded k :: e)
    | _ => (s, [])
    end
  end.
Fixpoint m_run (s : mic) (ops : list mop) : mic * list mev :=
  match ops with [] => (s, []) | o :: ops => let (s, a) := m_step s o in let (s, b) := m_run s ops in (s, a ++ b) end.
