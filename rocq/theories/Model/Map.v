(** Finite maps keyed by strings ([std::collections::HashMap<String, _>]): association lists.  No
    function below exposes an iteration order. *)
From Coq Require Import NArith List Bool.
From Coq Require Import Init.Byte Strings.Byte.
From Verif.Model Require Import Base.
Import ListNotations.

(** [==] on strings. *)
Fixpoint str_eqb (a b : bytes) : bool :=
  match a, b with
  | [], [] => true
  | x :: a, y :: b => Byte.eqb x y && str_eqb a b
  | _, _ => false
  end.

Definition map_of (V : Type) := list (bytes * V).

(** [get] *)
Fixpoint lookup {V} (k : bytes) (m : map_of V) : option V :=
  match m with
  | [] => None
  | (k', v) :: m => if str_eqb k k' then Some v else lookup k m
  end.
(** [remove] *)
Fixpoint remove {V} (k : bytes) (m : map_of V) : map_of V :=
  match m with
  | [] => []
  | (k', v) :: m => if str_eqb k k' then remove k m else (k', v) :: remove k m
  end.
(** [insert] *)
Definition put {V} (k : bytes) (v : V) (m : map_of V) : map_of V := (k, v) :: remove k m.
