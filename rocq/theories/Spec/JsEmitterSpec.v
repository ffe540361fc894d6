From Coq Require Import List.
From Verif.Model Require Import JsEmitter.

(** Nothing but pausing and going on *)
Definition only_pauses (ops : list mop) : Prop := forall o, In o ops -> exists b, o = MPaused b.
