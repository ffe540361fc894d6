(** What users of an origin observe. *)
From Coq Require Import NArith List Bool.
From Verif.Model Require Import Base Map OriginSys.
Import ListNotations.
Open Scope nat_scope.

Definition oevent : Type := oop * oout.

(** The broadcast to be found at [path]: the one last announced there, until a cleanup runs for it. *)
Definition activity (path : bytes) (cur : option nat) (e : oevent) : option nat :=
  match e with
  | (OPublish _ q b, OUnique _) => if str_eqb q path then Some b else cur
  | (OTask _, ORan q) => if str_eqb q path then None else cur
  | _ => cur
  end.
Definition active (path : bytes) (tr : list oevent) : option nat := fold_left (activity path) tr None.

(** The broadcasts announced at [path], oldest first. *)
Definition announced_of (path : bytes) (e : oevent) : list nat :=
  match e with (OPublish _ q b, OUnique _) => if str_eqb q path then [b] else [] | _ => [] end.
Definition announced (path : bytes) (tr : list oevent) : list nat := flat_map (announced_of path) tr.
Definition ended (b : nat) (tr : list oevent) : Prop := In (OEnd b, OUnit) tr.

(** [u] lists the broadcasts active after [tr] whose path starts with [pre], each once, without [pre]. *)
Definition snapshot (pre : bytes) (tr : list oevent) (u : list (bytes * nat)) : Prop :=
  NoDup (map fst u) /\ forall suffix b, In (suffix, b) u <-> active (pre ++ suffix) tr = Some b.

(** The announcements in [tr] whose path starts with [pre], in order, without [pre]. *)
Definition without (pre path : bytes) : option bytes :=
  if str_eqb (firstn (length pre) path) pre then Some (skipn (length pre) path) else None.
Definition relevant (pre : bytes) (e : oevent) : list (bytes * nat) :=
  match e with
  | (OPublish _ path b, OUnique _) => match without pre path with Some suffix => [(suffix, b)] | None => [] end
  | _ => []
  end.
Definition later (pre : bytes) (tr : list oevent) : list (bytes * nat) := flat_map (relevant pre) tr.

(** What consumer [c] obtained during [tr]. *)
Definition got_of (c : nat) (e : oevent) : list (bytes * nat) :=
  match e with (OPop d, OGot suffix b) => if Nat.eqb d c then [(suffix, b)] else [] | _ => [] end.
Definition got (c : nat) (tr : list oevent) : list (bytes * nat) := flat_map (got_of c) tr.

(** Consumer [c], asked for the next announcement, obtains [x]: at once or, if it was suspended, by
    being woken. *)
Definition obtains (s : osys) (c : nat) (x : bytes * nat) : Prop :=
  snd (ostep s (OPop c)) = OGot (fst x) (snd x) \/
  (snd (ostep s (ORecv c)) = OWoken /\ snd (ostep (fst (ostep s (ORecv c))) (OPop c)) = OGot (fst x) (snd x)).
(** It has not been dropped. *)
Definition reading (s : osys) (c : nat) : Prop := snd (ostep s (OCDrop c)) = OUnit.
(** Producer handle [p] exists. *)
Definition producing (s : osys) (p : nat) : Prop := snd (ostep s (OClone p)) = OUnit.

(** From state [s] on, consumer [c] receives [u] and then every later announcement under [pre], in
    order, each once, and never has to wait for one that is due. *)
Definition receives (s : osys) (c : nat) (pre : bytes) (u : list (bytes * nat)) : Prop :=
  forall ops s' tr, orun s ops = (s', tr) ->
  exists rest, got c tr ++ rest = u ++ later pre tr /\
    (reading s' c -> forall x r, rest = x :: r -> obtains s' c x).

(** No cleanup task can make progress. *)
Definition settled (s : osys) : Prop := forall k, snd (ostep s (OTask k)) = OBad.
