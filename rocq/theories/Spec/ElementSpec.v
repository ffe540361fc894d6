(** The watching element as the page and its user see it, read off the events. *)
From Coq Require Import NArith ZArith List Bool.
From Coq Require Import Init.Byte Strings.Byte.
From Verif.Model Require Import Base Player Element.
From Verif.Spec Require Import PlayerSpec.
Import ListNotations.

Section Spec.
Context {C : Type} (parse_url : bytes -> option bytes) (parse_float parse_int : bytes -> num).
Notation events := (list (eop C * eout C)).

(** The messages the worker took, oldest first. *)
Definition took (tr : events) : list cmd := flat_map (fun e => match snd e with ETook c _ => [c] | _ => [] end) tr.
(** What they say last. *)
Definition told_url (l : list cmd) : option bytes := fold_left (fun x c => match c with CConnect u => u | _ => x end) l None.
Definition told_latency (l : list cmd) : num := fold_left (fun x c => match c with CLatency n => n | _ => x end) l (Fin 0).
Definition told_paused (l : list cmd) : bool := fold_left (fun x c => match c with CPaused b => b | _ => x end) l false.
Definition told_visible (l : list cmd) : bool := fold_left (fun x c => match c with CVisible b => b | _ => x end) l true.
Definition told_muted (l : list cmd) : bool := fold_left (fun x c => match c with CMuted b => b | _ => x end) l false.
Definition told_canvas (l : list cmd) : option nat := fold_left (fun x c => match c with CCanvas k => k | _ => x end) l None.
Definition told_worklet (l : list cmd) : option nat := fold_left (fun x c => match c with CWorklet k => Some k | _ => x end) l None.

(** What the page asked for last.  A URL that does not parse changes nothing. *)
Definition asked_url (tr : events) : option bytes :=
  fold_left (fun x e => match fst e with
    | EUrl u => u
    | EAttrUrl None => None
    | EAttrUrl (Some v) => match v with [] => None | _ => match parse_url v with Some u => Some u | None => x end end
    | _ => x end) tr None.
Definition asked_latency (tr : events) : num :=
  fold_left (fun x e => match fst e with
    | ELatency n => n | EAttrLatency None => Fin 0 | EAttrLatency (Some v) => parse_int v | _ => x end) tr (Fin 0).
Definition asked_paused (tr : events) : bool := fold_left (fun x e => match fst e with EPaused b => b | _ => x end) tr false.
Definition asked_volume (tr : events) : num :=
  fold_left (fun x e => match fst e with
    | EVolume n => n | EAttrVolume None => Fin 1 | EAttrVolume (Some v) => parse_float v | _ => x end) tr (Fin 1).

(** Whether the canvas is on the screen as last reported, whether the page is in front, and the latest word about
    visibility of any kind. *)
Definition reported (e : eop C * eout C) : bool := match snd e with ENone => false | _ => true end.
Definition on_screen (tr : events) : bool :=
  fold_left (fun x e => match fst e with EIntersect b => if reported e then b else x | _ => x end) tr true.
Definition in_front (tr : events) : bool := fold_left (fun x e => match fst e with EDocument b => b | _ => x end) tr true.
Definition latest_word (tr : events) : bool :=
  fold_left (fun x e => match fst e with
    | EVisible b | EDocument b => b
    | EIntersect b => if reported e then b else x
    | _ => x end) tr true.

(** The canvas the user sees: the first one slotted, or the fallback if nothing is slotted. *)
Fixpoint first_of (els : list (option nat)) : option nat :=
  match els with [] => None | Some c :: _ => Some c | None :: els => first_of els end.
Definition displayed (els : list (option nat)) : option nat := match els with [] => Some 0 | _ => first_of els end.
Definition displays (tr : events) : list (option nat) :=
  Some 0 :: flat_map (fun e => match fst e with ESlot els => [displayed els] | _ => [] end) tr.
Definition on_display (tr : events) : option nat := last (displays tr) None.
(** No canvas comes back. *)
Definition once (tr : events) : Prop :=
  NoDup (flat_map (fun x => match x with Some c => [c] | None => [] end) (displays tr)).

(** The attempts at audio that succeeded: by the page, by a click. *)
Definition audios (tr : events) : nat :=
  length (filter (fun e => match e with (EAudio _ _, EDone) | (EClick _, EDone) => true | _ => false end) tr).
Definition clicked (tr : events) : Prop := exists t x, In (EClick t, x) tr.
(** All volumes are finite numbers. *)
Definition audible (tr : events) : Prop :=
  forall e, In e tr -> match fst e with
    | EVolume n => finite n = true | EAttrVolume (Some v) => finite (parse_float v) = true | _ => True end.

(** What happened in the worker. *)
Definition player (tr : events) : list (wop C * list (effect C)) :=
  flat_map (fun e => match e with
    | (_, ETook c x) => match command c with Some o => [(o, x)] | None => [] end
    | (ENet o, EDid x) => [(o, x)]
    | _ => [] end) tr.
End Spec.

(** The publishing element: the last value of an attribute; [None] if it is absent. *)
Definition attr_eqb (a b : attribute) : bool :=
  match a, b with AUrl, AUrl | ADevice, ADevice | ANoVideo, ANoVideo | ANoAudio, ANoAudio => true | _, _ => false end.
Definition value (a : attribute) (l : list (attribute * option bytes)) : option bytes :=
  fold_left (fun x e => if attr_eqb a (fst e) then snd e else x) l None.

(** The volume of an AudioContext and whether it runs. *)
Definition gain_at {C} (s : element C) (x : nat) : option num := option_map fst (nth_error (el_contexts s) x).
Definition running {C} (s : element C) (x : nat) : bool := match nth_error (el_contexts s) x with Some (_, r) => r | None => false end.
(** Nothing but the observer says whether the element is visible. *)
Definition undisturbed {C} (tr : list (eop C * eout C)) : Prop :=
  forall e, In e tr -> match fst e with EVisible _ | EDocument _ => False | _ => True end.
(** Nobody makes an AudioContext that may not run. *)
Definition permitted {C} (tr : list (eop C * eout C)) : Prop :=
  forall e, In e tr -> match fst e with EAudio _ r => r = true | _ => True end.
(** Nothing waits to be told to the worker. *)
Definition settled {C} builds parse_url parse_float parse_int (s : element C) : Prop :=
  snd (estep builds parse_url parse_float parse_int s EWork) = EIdle.
