(** The peers a page asks for, from what it did. *)
From Coq Require Import Arith List Bool.
From Verif.Model Require Import JsPeers.
Import ListNotations.

(** The [i]th peer is open, was made with the handle [f] and has [c] now: read from the end of what the page did *)
Fixpoint made (ops : list pop) : nat := match ops with [] => 0 | PNew _ :: ops => S (made ops) | _ :: ops => made ops end.
Fixpoint is_open (rops : list pop) (i : nat) (f c : option nat) : Prop :=
  match rops with
  | [] => False
  | PNew h :: rops => (i = made rops /\ f = h /\ c = h) \/ is_open rops i f c
  | PSet j h :: rops => if j =? i then c = h /\ exists c', is_open rops i f c' else is_open rops i f c
  | PClose j :: rops => if j =? i then False else is_open rops i f c
  end.
Definition opened (ops : list pop) := is_open (rev ops).
Definition wanted (ops : list pop) (h : nat) : Prop := exists i f, opened ops i f (Some h).

(** No peer has a handle that another has or was made with *)
Definition apart (ops : list pop) : Prop :=
  forall i j f c f' h, i <> j -> opened ops i f c -> opened ops j f' (Some h) -> c <> Some h /\ f <> Some h.
(** No peer has a handle that another has *)
Definition unlike (ops : list pop) : Prop :=
  forall i j f c f' h, i <> j -> opened ops i f c -> opened ops j f' (Some h) -> c <> Some h.
Definition always (P : list pop -> Prop) (ops : list pop) : Prop := forall a b, ops = a ++ b -> P a.
