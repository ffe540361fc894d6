(** The pool of sessions as its elements see it, read off the events. *)
From Coq Require Import NArith List Bool.
From Verif.Model Require Import Base Pool.
Import ListNotations.

Notation cevents := (list (cop * cout))%type.

(** Attempt [n] was made for URL [u]. *)
Definition tried (tr : cevents) (u : bytes) (n : nat) : Prop := In (CConnect u, CNew n) tr.
(** It connected; it failed; its session was ended by the network; its session was ended by the page. *)
Definition came_up (tr : cevents) (n : nat) : Prop := In (CDone n true, CUnit) tr.
Definition failed (tr : cevents) (n : nat) : Prop := In (CDone n false, CUnit) tr.
Definition lost (tr : cevents) (n : nat) : Prop := In (CLost n, CUnit) tr.
Definition released (tr : cevents) (n : nat) : Prop := In (CUnused n, CUnit) tr.

(** The attempts handed out, in the order of the handles. *)
Definition given (tr : cevents) : list nat :=
  flat_map (fun e => match snd e with CNew n | CShared n => [n] | _ => [] end) tr.
Definition dropped (tr : cevents) (h : nat) : Prop := In (CDrop h, CUnit) tr.
(** No handle to attempt [n] is left. *)
Definition unused (tr : cevents) (n : nat) : Prop :=
  forall h, nth_error (given tr) h = Some n -> dropped tr h.
