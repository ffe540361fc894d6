(** Whose tracks a broadcast delivers. *)
From Coq Require Import NArith List Bool.
From Coq Require Import Init.Byte Strings.Byte.
From Verif.Model Require Import OriginSys Base Map Spread SpreadAsk.
From Verif.Spec Require Import OriginSpec SpreadSpec.
Import ListNotations.
Open Scope nat_scope.

(** A subscription to broadcast [b] ends up at broadcast [b0] of an application: [b] is that broadcast, or the
    session it came through asks for what ends up there. *)
Inductive delivers (s : spread) : nat -> nat -> Prop :=
| delivers_own b : In b (sp_mine s) -> delivers s b b
| delivers_asked h p b path b1 b0 : nth_error (sp_hops s) h = Some p -> ask_path s p b = Some path -> ask_found s p path = Some b1 ->
    delivers s b1 b0 -> delivers s b b0.

(** No session was asked for a prefix. *)
Definition unprefixed (tr : list spevent) : Prop := forall a pre ks b add x, In (SHop a pre ks b add, x) tr -> so_ok x = true -> pre = [].
