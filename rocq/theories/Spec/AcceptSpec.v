(** What is seen of the loop that lets clients in, from what happened only. *)
From Coq Require Import List.
From Verif.Model Require Import Base Accept.
Import ListNotations.
Open Scope nat_scope.

Section AcceptSpec.
Context {url token : Type}.
Notation log := (list (acop url * acout token)).

(** The client that is dealt with for good. *)
Definition dealt1 (e : acop url * acout token) : list nat :=
  match snd e with AcFailed k | AcServed k _ _ | AcRefused k | AcCrashed k => [k] | _ => [] end.
Definition dealt (tr : log) : list nat := flat_map dealt1 tr.
(** The clients whose handshake begins, and the numbers given to connections. *)
Definition begun1 (e : acop url * acout token) : list nat := match snd e with AcBegun k => [k] | _ => [] end.
Definition begun (tr : log) : list nat := flat_map begun1 tr.
Definition ids1 (e : acop url * acout token) : list nat := match snd e with AcServed _ id _ => [id] | _ => [] end.
Definition ids (tr : log) : list nat := flat_map ids1 tr.
(** The clients that reached the endpoint, and those whose handshake has ended. *)
Definition arrived1 (e : acop url * acout token) : list unit := match e with (AcArrive, AcDone) => [tt] | _ => [] end.
Definition arrived (tr : log) : nat := length (flat_map arrived1 tr).
Definition shaken (tr : log) (k : nat) (r : option url) : Prop := In (AcShake k r, AcDone) tr.

(** What is to be done with a client whose handshake ended with [r]; [id]: the number it is given. *)
Definition treatment (validate : url -> res (option token)) (k id : nat) (r : option url) : acout token :=
  match r with
  | None => AcFailed k
  | Some u => match validate u with Val (Some t) => AcServed k id t | Val None => AcRefused k | Panic => AcCrashed k end
  end.

(** The relay has been told to end, or cannot go on. *)
Definition told_to_end (tr : log) : Prop := In (AcSignal, AcHeard) tr \/ In (AcSignal, AcKilled) tr \/ In (AcLose, AcDone) tr.
(** The relay is over. *)
Definition ending (x : acout token) : Prop := match x with AcStopped | AcKilled | AcCrashed _ => True | _ => False end.
Definition ended (tr : log) : Prop := exists o x, In (o, x) tr /\ ending x.

(** What the last round of the loop did, if there was one. *)
Definition round1 (e : acop url * acout token) : option (acout token) :=
  match e with (AcPoll _, AcNothing) => None | (AcPoll _, x) => Some x | _ => None end.
Definition last_round (tr : log) : option (acout token) :=
  fold_left (fun a e => match round1 e with Some x => Some x | None => a end) tr None.
End AcceptSpec.
