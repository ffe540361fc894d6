(** What users of a broadcast observe. *)
From Coq Require Import NArith ZArith List Bool.
From Verif.Model Require Import Base ErrorCode Stream Frame FrameSys Map BroadcastSys.
Import ListNotations.
Open Scope nat_scope.

Definition bevent : Type := bop * bout.

(** Names of the tracks in order of creation, and the track last put in service under [n]: by a
    subscription that created it, or by the publisher creating or inserting it. *)
Definition serve (n : bytes) (st : list bytes * option nat) (e : bevent) : list bytes * option nat :=
  let (names, cur) := st in
  match e with
  | (BSubscribe _ m, BTrack t true) | (BCreate _ m, BTrack t true) =>
      (names ++ [m], if str_eqb m n then Some t else cur)
  | (BNewTrack m, BTrack _ true) => (names ++ [m], cur)
  | (BInsert _ t, BUnique _) =>
      (names, match nth_error names t with Some m => if str_eqb m n then Some t else cur | None => cur end)
  | _ => (names, cur)
  end.
Definition served (n : bytes) (tr : list bevent) : list bytes * option nat := fold_left (serve n) tr ([], None).
Definition serving (n : bytes) (tr : list bevent) : option nat := snd (served n tr).

(** The holder of track [t] finished, aborted or dropped it. *)
Definition stopped (t : nat) (tr : list bevent) : Prop := exists o, In (BEnd t o, BUnit) tr.
(** The last producer has been dropped (at least begun to be). *)
Definition shut (tr : list bevent) : Prop := exists p, In (BDrop p, BShutdown) tr.

(** Requests handed to the publisher, and subscriptions that created a track, oldest first. *)
Definition handed_of (e : bevent) : list nat :=
  match e with (BRequest _, BRequested (AOk (Some t))) => [t] | _ => [] end.
Definition handed (tr : list bevent) : list nat := flat_map handed_of tr.
Definition missed_of (e : bevent) : list nat :=
  match e with (BSubscribe _ _, BTrack t true) => [t] | _ => [] end.
Definition missed (tr : list bevent) : list nat := flat_map missed_of tr.
(** Tracks the publisher created itself. *)
Definition offered_of (e : bevent) : list nat :=
  match e with (BCreate _ _, BTrack t true) | (BNewTrack _, BTrack t true) => [t] | _ => [] end.
Definition offered (tr : list bevent) : list nat := flat_map offered_of tr.
(** Tracks given to subscribers. *)
Definition given_of (e : bevent) : list nat :=
  match e with (BSubscribe _ _, BTrack t _) => [t] | _ => [] end.
Definition given (tr : list bevent) : list nat := flat_map given_of tr.

(** Live producer handles. *)
Definition producing (n : Z) (e : bevent) : Z :=
  match e with
  | (BClone _, BUnit) => n + 1
  | (BDrop _, BUnit) | (BDrop _, BShutdown) => n - 1
  | _ => n
  end%Z.
Definition producers (tr : list bevent) : Z := fold_left producing tr 1%Z.

(** Polling [closed] on a consumer of track [t] in state [s] resolves. *)
Definition over (s : bsys) (t : nat) : Prop := exists o, snd (bstep s (BTrackClosed t)) = BEnded (Some o).

(** No cleanup task can make progress. *)
Definition settled (s : bsys) : Prop := forall k, snd (bstep s (BCleanup k)) = BBad.

(** The operation mentions producer handle [p] or drops a producer. *)
Definition about_producer (p : nat) (o : bop) : bool :=
  match o with
  | BRequest q | BCreate q _ | BInsert q _ | BFinish q | BClone q | BConsume q | BUnused q => Nat.eqb p q
  | BDrop _ => true
  | _ => false
  end.
