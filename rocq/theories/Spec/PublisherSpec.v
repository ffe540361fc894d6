(** What serving a track and announcing must look like from outside. *)
From Coq Require Import NArith ZArith List Bool.
From Coq Require Import Init.Byte Strings.Byte.
From Verif.Model Require Import Base Coding Message ErrorCode Stream Map Publisher.
From Verif.Spec Require Import CodingSpec MessageSpec StreamSpec.
Import ListNotations.
Open Scope nat_scope.

(** * Serving *)
Definition sevent : Type := sop * sout.

(** Number of groups obtained, and their sequence numbers. *)
Definition obtained_of (e : sevent) : list N := match e with (SGroup q, SBad) => [] | (SGroup q, _) => [q] | _ => [] end.
Definition obtained (tr : list sevent) : list N := flat_map obtained_of tr.

(** What this step starts, completes, cancels. *)
Definition started_by (e : sevent) : list nat := match snd e with SStarted i _ _ => [i] | _ => [] end.
Definition completed_by (e : sevent) : list nat := match snd e with SCompleted i _ => [i] | _ => [] end.
Definition cancelled_by (e : sevent) : list nat :=
  match snd e with SStarted _ _ c | SCompleted _ c | SReturned _ c | SPanicked c => c | _ => [] end.
Definition returned_by (e : sevent) : bool := match snd e with SReturned _ _ | SPanicked _ => true | _ => false end.

Definition started (tr : list sevent) : list nat := flat_map started_by tr.
Definition completed (tr : list sevent) : list nat := flat_map completed_by tr.
Definition cancelled (tr : list sevent) : list nat := flat_map cancelled_by tr.
Definition is_over (tr : list sevent) : Prop := exists e, In e tr /\ returned_by e = true.

(** In flight: started, neither completed nor cancelled. *)
Definition in_flight (tr : list sevent) (i : nat) : Prop :=
  In i (started tr) /\ ~ In i (completed tr) /\ ~ In i (cancelled tr).

(** * Announcing *)
Definition nevent : Type := nop * nout.

Definition fed_of (e : nevent) : list (bytes * nat) := match e with (NFeed s b, _) => [(s, b)] | _ => [] end.
Definition fed (tr : list nevent) : list (bytes * nat) := flat_map fed_of tr.
Definition closes_of (e : nevent) : list nat := match e with (NClose b, _) => [b] | _ => [] end.
Definition closes (tr : list nevent) : list nat := flat_map closes_of tr.
Definition sent_of (e : nevent) : list announce := match snd e with NSent l | NFinished l => l | _ => [] end.
Definition sent (tr : list nevent) : list announce := flat_map sent_of tr.

(** Messages about one path: [true] for active. *)
Definition about_of (s : bytes) (a : announce) : list bool :=
  match a with
  | Active x => if str_eqb x s then [true] else []
  | Ended x => if str_eqb x s then [false] else []
  end.
Definition about (s : bytes) (l : list announce) : list bool := flat_map (about_of s) l.

Fixpoint count (b : bool) (l : list bool) : nat :=
  match l with [] => 0 | x :: l => (if Bool.eqb x b then 1 else 0) + count b l end.

(** Active, ended, active, ... *)
Fixpoint alternates (next : bool) (l : list bool) : Prop :=
  match l with [] => True | x :: l => x = next /\ alternates (negb next) l end.

(** What a peer following the stream believes about the path. *)
Definition view (s : bytes) (l : list announce) : bool := last (about s l) false.

(** Broadcasts announced at [s]; those not closed. *)
Definition at_path (s : bytes) (l : list (bytes * nat)) : list nat :=
  map snd (filter (fun e => str_eqb (fst e) s) l).
Definition open_at (s : bytes) (tr : list nevent) : list nat :=
  filter (fun b => negb (existsb (Nat.eqb b) (closes tr))) (at_path s (fed tr)).

(** Every path is announced again only after everything announced there before was reported ended. *)
Definition polite (tr : list nevent) : Prop :=
  forall t1 s b x t2, tr = t1 ++ (NFeed s b, x) :: t2 ->
    count false (about s (sent t1)) = length (at_path s (fed t1)).

(** The stream has been finished (cleanly ended) by the publisher. *)
Definition has_finished (tr : list nevent) : Prop := exists o l, In (o, NFinished l) tr.

(** * Answering *)
(** A subscription request starts the incoming bytes. *)
Definition asks (w : N) (m : subscribe) (r : reader) (rest : bytes) : Prop :=
  wf w KSubscribe m /\ exists ps, encode_kind KSubscribe m = Val ps /\ content r = wire ps ++ rest.
