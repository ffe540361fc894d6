(** The publishing element as the page and the relay see it, read off the events. *)
From Coq Require Import NArith List Bool.
From Coq Require Import Init.Byte Strings.Byte.
From Verif.Model Require Import Base Player WebPublish.
Import ListNotations.

Notation uevents := (list (uop * list ueffect))%type.
Definition ueffects (tr : uevents) : list ueffect := flat_map snd tr.
Definition crashed (tr : uevents) : Prop := In XPanic (ueffects tr).

Definition same_kind (a b : kind) : bool :=
  match a, b with Audio, Audio => true | Video, Video => true | _, _ => false end.

(** The URL asked for whose answer is still awaited. *)
Definition requested (tr : uevents) : option bytes :=
  fold_left (fun j e => match fst e with UConnect p => p | USession _ => None | _ => j end) tr None.
(** The broadcasts published, newest first; and those published since the encoder of kind [k] was made. *)
Definition published_in (x : list ueffect) : list nat :=
  rev (flat_map (fun e => match e with XPublish b _ => [b] | _ => [] end) x).
Definition published (tr : uevents) : list nat := published_in (ueffects tr).
Definition since (k : kind) (tr : uevents) : list nat :=
  fold_left (fun l e => match fst e with
    | UInit k' true => if same_kind k k' then [] else published_in (snd e) ++ l
    | _ => published_in (snd e) ++ l end) tr [].
(** The page has an encoder of kind [k]: it asked for one, got it, and did not close it. *)
Definition has_encoder (k : kind) (tr : uevents) : bool :=
  fold_left (fun h e => match fst e with
    | UInit k' true => if same_kind k k' then true else h
    | UClose k' => if same_kind k k' then false else h
    | _ => h end) tr false.
Definition over (tr : uevents) (b : nat) : Prop := In (XGone b) (ueffects tr).
Definition names (tr : uevents) : list bytes :=
  flat_map (fun e => match e with XTrack _ n => [n] | _ => [] end) (ueffects tr).
