(** What applications observe of announcements spreading. *)
From Coq Require Import NArith List Bool.
From Coq Require Import Init.Byte Strings.Byte.
From Verif.Model Require Import OriginSys Base Map Spread.
From Verif.Spec Require Import OriginSpec.
Import ListNotations.
Open Scope nat_scope.

Definition spevent : Type := spop * spout.

(** What happened to origin [n]. *)
Definition history (n : nat) (tr : list spevent) : list oevent :=
  flat_map (fun e => flat_map (fun d => if Nat.eqb (fst d) n then [snd d] else []) (so_did (snd e))) tr.
(** What was published at origin [n], oldest first. *)
Definition pub_of (e : oevent) : list (bytes * nat) :=
  match e with (OPublish _ path b, OUnique _) => [(path, b)] | _ => [] end.
Definition given (n : nat) (tr : list spevent) : list (bytes * nat) := flat_map pub_of (history n tr).

(** The application made origin [n]; it ended broadcast [b]; the session of hop [h] closed. *)
Definition origin_made (tr : list spevent) (n : nat) : Prop := exists x, In (SNode, x) tr /\ so_made x = Some n.
Definition was_ended (tr : list spevent) (b : nat) : Prop := exists x, In (SEnd b, x) tr /\ so_ok x = true.
Definition was_cut (tr : list spevent) (h : nat) : Prop := exists x, In (SFail h, x) tr /\ so_ok x = true.

(** Announcements of [p] at origin [a] go to origin [b] as [q]: within one program, or through session [h].
    (The code removes the prefix asked for twice in a session, C41.) *)
Inductive leads (tr : list spevent) : option nat -> nat -> bytes -> nat -> bytes -> Prop :=
| leads_link a pre ks b add x s : In (SLink a pre ks b add, x) tr -> so_ok x = true ->
    leads tr None a (pre ++ s) b (add ++ s)
| leads_hop a pre ks b add x s h : In (SHop a pre ks b add, x) tr -> so_made x = Some h ->
    leads tr (Some h) a (pre ++ pre ++ s) b (add ++ s).
Definition by_session (o : option nat) : list nat := match o with Some h => [h] | None => [] end.

(** [path] at origin [n] stands for broadcast [b] of the application, through the sessions [hs]. *)
Inductive comes (tr : list spevent) : nat -> bytes -> nat -> list nat -> Prop :=
| comes_here n path b x : In (SPublish n path b, x) tr -> so_ok x = true -> comes tr n path b []
| comes_by o a p n q b hs : comes tr a p b hs -> leads tr o a p n q -> comes tr n q b (by_session o ++ hs).

(** It is still to be seen there: the broadcast has not ended and no session on the way has closed. *)
Definition present (tr : list spevent) (n : nat) (path : bytes) : Prop :=
  exists b hs, comes tr n path b hs /\ ~ was_ended tr b /\ forall h, In h hs -> ~ was_cut tr h.

(** Every path is published at most once at every origin of the application. *)
Definition once (tr : list spevent) : Prop := forall n, origin_made tr n -> NoDup (map fst (given n tr)).

(** Nothing is left to do for the tasks. *)
Definition internal (o : spop) : Prop :=
  match o with
  | SClean _ _ | SStep _ | STurn _ _ _ | SRead _ | SLeave _ | SIdle _ | SGone _ _ => True
  | _ => False
  end.
Definition at_rest (s : spread) : Prop := forall o, internal o -> fst (spstep s o) = s.

(** Looking up [path] at origin [n] finds broadcast [b]; a consumer of [b] is told that it is closed. *)
Definition finds (s : spread) (n : nat) (path : bytes) (b : nat) : Prop :=
  so_did (snd (spstep s (SUse n (OLookup 0 path)))) = [(n, (OLookup 0 path, OFound (Some b)))].
Definition is_closed (s : spread) (b : nat) : Prop := so_ok (snd (spstep s (SClosed b))) = true.

(** The ways into the origins, with the prefix each adds, and the paths the application publishes itself. *)
Definition ways (tr : list spevent) : list (nat * bytes) :=
  flat_map (fun e => match fst e with SLink _ _ _ b add | SHop _ _ _ b add => if so_ok (snd e) then [(b, add)] else [] | _ => [] end) tr.
Definition puts (tr : list spevent) : list (nat * bytes) :=
  flat_map (fun e => match fst e with SPublish n path _ => if so_ok (snd e) then [(n, path)] else [] | _ => [] end) tr.
(** No two of them can produce the same path at one origin: the prefixes of two ways into it exclude each
    other, the paths published there directly are under none of them, and each is published once. *)
Definition excludes (p q : bytes) : Prop := forall s t, p ++ s <> q ++ t.
Definition apart (tr : list spevent) : Prop :=
  (forall i j n p q, nth_error (ways tr) i = Some (n, p) -> nth_error (ways tr) j = Some (n, q) -> i <> j -> excludes p q) /\
  (forall n path p s, In (n, path) (puts tr) -> In (n, p) (ways tr) -> path <> p ++ s) /\
  NoDup (puts tr).
