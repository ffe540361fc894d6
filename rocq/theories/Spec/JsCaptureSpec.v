(** What a web page records, from what happened only. *)
From Coq Require Import List Bool.
From Verif.Model Require Import JsCapture.
Import ListNotations.

Notation clog := (list cev).

Definition recording (l : clog) (t : nat) (x : kind) : Prop := In (ERec t x) l /\ ~ In (EStop t) l.
Definition pending (l : clog) (k : nat) : Prop := (exists w, In (EAsk k w) l) /\ ~ In (EGranted k) l /\ ~ In (EDenied k) l.
(** What is selected and enabled *)
Definition wants (l : clog) : option device * bool * bool :=
  fold_left (fun x e => match e with EWant d a v => (d, a, v) | _ => x end) l (None, false, false).
Definition closed (l : clog) : Prop := In EClosed l.
(** Nothing is changed while a request is pending. *)
Definition unhurried (l : clog) : Prop :=
  (forall a d x v b, l = a ++ EWant d x v :: b -> forall k, ~ pending a k) /\ (forall a b, l = a ++ EClosed :: b -> forall k, ~ pending a k).
(** Which requests a selection calls for: the two of a camera are separate, that of a screen is for both kinds. *)
Definition calls_for (x : option device * bool * bool) (w : asker) : bool :=
  match x, w with
  | (Some Camera, a, _), CamAudio => a
  | (Some Camera, _, v), CamVideo => v
  | (Some Screen, a, v), Both => a || v
  | _, _ => false
  end.
(** A kind may be recorded under a selection: it is enabled, or it comes with the screen that is shared. *)
Definition may_record (x : option device * bool * bool) (k : kind) : bool :=
  match x, k with
  | (Some Camera, a, _), KAudio => a
  | (Some Camera, _, v), KVideo => v
  | (Some Screen, a, v), _ => a || v
  | _, _ => false
  end.
Definition enabled_for (x : option device * bool * bool) (k : kind) : bool :=
  match x, k with (_, a, _), KAudio => a | (_, _, v), KVideo => v end.
