(** What is seen of a video player, from what happened only. *)
From Coq Require Import ZArith List.
From Verif.Model Require Import JsVideo.
Import ListNotations.

Notation vlog := (list vev).

(** The frames that have come out of decoders, and those that were closed (given back to the browser). *)
Definition outs (l : vlog) : list vframe := flat_map (fun e => match e with EOut f => [f] | _ => [] end) l.
Definition given_back (l : vlog) : list vframe := flat_map (fun e => match e with EDrop f | ESkip _ f => [f] | _ => [] end) l.

(** How far ahead of the clock the frames were that frame(now) has looked at. *)
Definition seen (l : vlog) : list Z :=
  flat_map (fun e => match e with ESkip now f | EShow now f _ => [(f_ts f - now)%Z] | _ => [] end) l.
(** The same for the frames of decoder [k]. *)
Definition seen_of (k : nat) (l : vlog) : list Z :=
  flat_map (fun e => match e with ESkip now f | EShow now f _ => if Nat.eqb (f_src f) k then [(f_ts f - now)%Z] else [] | _ => [] end) l.

(** [m] is the largest number of [l] *)
Definition largest (l : list Z) (m : Z) : Prop := In m l /\ forall x, In x l -> (x <= m)%Z.
(** [d] is how much later than the earliest frame so far a frame is that is [v] ahead of the clock. *)
Definition late (sofar : list Z) (v d : Z) : Prop := largest (sofar ++ [v]) (v + d).

Definition all_from (k : nat) (l : list vframe) : Prop := forall f, In f l -> f_src f = k.
