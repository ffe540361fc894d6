(** Who reads a subscription, read off the calls and their results. *)
From Coq Require Import List Bool Arith.
From Verif.Model Require Import JsHold.
Import ListNotations.

Definition htrace : Type := list (hop * hout).

(** The readers of subscription [g]. *)
Definition readers (g : nat) (tr : htrace) : list nat :=
  flat_map (fun e => match snd e with HReader c g' => if Nat.eqb g' g then [c] else [] | _ => [] end) tr.
(** The calls of [close] on readers of [g]: which readers. *)
Definition closings (g : nat) (tr : htrace) : list nat :=
  flat_map (fun e => match e with (HClose c, HClosed g') => if Nat.eqb g' g then [c] else [] | _ => [] end) tr.

(** No reader is closed twice. *)
Definition closed_once (tr : htrace) : Prop := forall g, NoDup (closings g tr).

(** Subscription [g] is going, and nobody has it open. *)
Definition abandoned (tr : htrace) (g : nat) : Prop :=
  readers g tr <> [] /\ (forall c, In c (readers g tr) -> In c (closings g tr)) /\ forall o, ~ In (o, HStopped g) tr.
