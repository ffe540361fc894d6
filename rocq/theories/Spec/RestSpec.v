(** When a network of origins and sessions is busy for ever, and when it is not. *)
From Coq Require Import List.
From Verif.Model Require Import OriginSys Base Map Spread.
From Verif.Spec Require Import OriginSpec SpreadSpec.
Import ListNotations.
Open Scope nat_scope.

(** Links and sessions do not lead in a circle: origins can be ranked so that they only lead to higher ones. *)
Definition ordered (tr : list spevent) : Prop := exists rank : nat -> nat, forall a pre ks b add x,
  In (SLink a pre ks b add, x) tr \/ In (SHop a pre ks b add, x) tr -> so_ok x = true -> rank a < rank b.

(** Without anybody using it, the network can go through [n] further changes. *)
Inductive works : spread -> nat -> Prop :=
| works_no s : works s 0
| works_on s o n : internal o -> fst (spstep s o) <> s -> works (fst (spstep s o)) n -> works s (S n).
