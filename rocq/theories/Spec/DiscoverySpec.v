(** The life of a relay in its cluster, read off the events. *)
From Coq Require Import NArith List Bool.
From Coq Require Import Init.Byte Strings.Byte.
From Verif.Model Require Import Base Map Discovery.
Import ListNotations.

Notation devents := (list (dop * list deffect))%type.
Definition deffects (tr : devents) : list deffect := flat_map snd tr.

(** The path at which the relay [host] is announced. *)
Definition place (c : config) (host : bytes) : bytes := prefix_of c ++ ["/"%byte] ++ host.
(** The root announced relay [host], by broadcast [b], while it was listened to; it withdrew [b]. *)
Definition told (c : config) (tr : devents) (host : bytes) (b : nat) : Prop := In (DAnnounce (place c host) b, []) tr.
Definition retracted (tr : devents) (b : nat) : Prop := exists x, In (DGone b, x) tr.
(** How often [host] was announced. *)
Definition times_told (c : config) (tr : devents) (host : bytes) : nat :=
  length (filter (fun e => match e with
    | (DAnnounce p _, []) => if list_eq_dec Byte.byte_eq_dec p (place c host) then true else false
    | _ => false end) tr).

(** The sessions opened to other relays that did not end. *)
Definition open_links (tr : devents) : list (nat * bytes) :=
  fold_left (fun l e =>
    match e with
    | (DLost j, _) => filter (fun k => negb (Nat.eqb j (fst k))) l
    | (_, x) => l ++ flat_map (fun y => match y with EOpen j h => [(j, h)] | _ => [] end) x
    end) tr [].

(** Nothing more happens by itself. *)
Definition at_rest (c : config) (s : disco) : Prop :=
  fst (dstep c s DNext) = s /\ forall i, fst (dstep c s (DPoll i)) = s.

(** Task [i] keeps trying to reach [host]: it is about to try again, or trying, or it has a session and tries again
    when that is lost. *)
Definition pursues (c : config) (s : disco) (tr : devents) (i : nat) (host : bytes) : Prop :=
  snd (dstep c s (DWake i)) = [EDial i host] \/
  (exists j, snd (dstep c s (DResult i true)) = [EOpen j host]) \/
  (exists j, In (j, host) (open_links tr) /\ snd (dstep c (fst (dstep c s (DLost j))) (DWake i)) = [EDial i host]).

(** A relay that is the root of its cluster, as documented. *)
Definition is_root (c : config) : Prop := cf_connect c = None \/ cf_connect c = cf_advertise c.
(** The sessions open with [host]. *)
Definition open_with (h : bytes) (tr : devents) : list (nat * bytes) :=
  filter (fun k => if list_eq_dec Byte.byte_eq_dec (snd k) h then true else false) (open_links tr).
