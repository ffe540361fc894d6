(** What a receiver of announcements must look like from outside. *)
From Coq Require Import NArith List Bool.
From Coq Require Import Init.Byte Strings.Byte.
From Verif.Model Require Import OriginSys Base Coding Message ErrorCode Map ReceiverSys.
From Verif.Spec Require Import OriginSpec.
Import ListNotations.
Open Scope nat_scope.

Definition revent : Type := rop * rout.

(** The announcements accepted, in order. *)
Definition taken_of (e : revent) : list (bytes * nat) := match e with (RMsg _, RAnnounced p b) => [(p, b)] | _ => [] end.
Definition taken (tr : list revent) : list (bytes * nat) := flat_map taken_of tr.

(** The broadcast announced at [path] and not ended by the peer. *)
Definition liveness (path : bytes) (cur : option nat) (e : revent) : option nat :=
  match e with
  | (RMsg _, RAnnounced p b) => if str_eqb p path then Some b else cur
  | (RMsg _, REnded p _) => if str_eqb p path then None else cur
  | _ => cur
  end.
Definition live_at (path : bytes) (tr : list revent) : option nat := fold_left (liveness path) tr None.

(** The stream is still being followed. *)
Definition left_by (e : revent) : bool := match snd e with RLeft _ => true | _ => false end.
Definition following (tr : list revent) : Prop := forall e, In e tr -> left_by e = false.

(** Ends received for [path], cleanups run for it. *)
Definition ends_of (path : bytes) (e : revent) : nat :=
  match e with (RMsg _, REnded p _) => if str_eqb p path then 1 else 0 | _ => 0 end.
Definition cleanups_of (path : bytes) (e : revent) : nat :=
  match e with (RLocal (OTask _), ROut (ORan p)) => if str_eqb p path then 1 else 0 | _ => 0 end.
Definition ends_at (path : bytes) (tr : list revent) : nat := list_sum (map (ends_of path) tr).
Definition cleanups_at (path : bytes) (tr : list revent) : nat := list_sum (map (cleanups_of path) tr).

(** No cleanup is waiting to run. *)
Definition tidy (s : rsys) : Prop := forall k, snd (rstep s (RLocal (OTask k))) = ROut OBad.

(** What the consumer returned to the user obtained. *)
Definition rgot_of (e : revent) : list (bytes * nat) :=
  match e with (RLocal (OPop 0), ROut (OGot suffix b)) => [(suffix, b)] | _ => [] end.
Definition rgot (tr : list revent) : list (bytes * nat) := flat_map rgot_of tr.

(** Asked for the next announcement it returns [x], at once or on being woken. *)
Definition yields (s : rsys) (x : bytes * nat) : Prop :=
  snd (rstep s (RLocal (OPop 0))) = ROut (OGot (fst x) (snd x)) \/
  (snd (rstep s (RLocal (ORecv 0))) = ROut OWoken /\
   snd (rstep (fst (rstep s (RLocal (ORecv 0)))) (RLocal (OPop 0))) = ROut (OGot (fst x) (snd x))).
(** The user has not dropped it. *)
Definition kept (s : rsys) : Prop := snd (rstep s (RLocal (OCDrop 0))) = ROut OUnit.
(** Of a list of announcements, those whose path starts with [pre], without it. *)
Definition strips (pre : bytes) (l : list (bytes * nat)) : list (bytes * nat) :=
  flat_map (fun e => match without pre (fst e) with Some x => [(x, snd e)] | None => [] end) l.
