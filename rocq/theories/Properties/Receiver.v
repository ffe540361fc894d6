(** Receiving announcements: C40, C41, C74. *)
From Coq Require Import NArith List Bool.
From Coq Require Import Init.Byte Strings.Byte.
From Verif.Model Require Import OriginSys Base Coding Message ErrorCode Map ReceiverSys.
From Verif.Spec Require Import OriginSpec ReceiverSpec.
From Verif.Proofs Require Import ReceiverP.
Import ListNotations.
Open Scope nat_scope.

Definition pa : bytes := ["a"%byte].
Definition pb : bytes := ["b"%byte].

(** ** C40: announcement receivers accept every well-formed stream *)

(** The end of a broadcast is accepted exactly when one is live at the path. *)
Theorem C40_ended_exact : forall pre ops s tr path, rrun (rsys_new pre) ops = (s, tr) -> following tr ->
  snd (rstep s (RMsg (Ended path))) =
  match live_at path tr with Some b => REnded path b | None => RLeft (Some NotFound) end.
Proof. exact ended_exact. Qed.
Print Assumptions C40_ended_exact.

(** An announcement is accepted exactly when none is live at the path and the cleanup for every earlier
    one at that path has run. *)
Theorem C40_active_exact : forall pre ops s tr path, rrun (rsys_new pre) ops = (s, tr) -> following tr ->
  snd (rstep s (RMsg (Active path))) =
  match live_at path tr with
  | Some _ => RLeft (Some Duplicate)
  | None => if Nat.eqb (ends_at path tr) (cleanups_at path tr) then RAnnounced path (length (taken tr)) else RLeft (Some Duplicate)
  end.
Proof. exact active_exact. Qed.
Print Assumptions C40_active_exact.

(** So the claim holds when no cleanup is waiting: what is missing is the case where one is. *)
Theorem C40_active_partial : forall pre ops s tr path, rrun (rsys_new pre) ops = (s, tr) -> following tr -> tidy s ->
  snd (rstep s (RMsg (Active path))) =
  match live_at path tr with
  | Some _ => RLeft (Some Duplicate)
  | None => RAnnounced path (length (taken tr))
  end.
Proof. exact active_tidy. Qed.
Print Assumptions C40_active_partial.

(** A broadcast that was accepted is open exactly while it is the one live at its path. *)
Theorem C40_available : forall pre ops s tr p b, rrun (rsys_new pre) ops = (s, tr) -> following tr -> In (p, b) (taken tr) ->
  snd (rstep s (RIsClosed b)) = RClosed (match live_at p tr with Some b' => negb (Nat.eqb b' b) | None => true end).
Proof. exact closed_exact. Qed.
Print Assumptions C40_available.

(** The origin holds exactly the live broadcasts once no cleanup is waiting. *)
Theorem C40_lookup : forall pre ops s tr p, rrun (rsys_new pre) ops = (s, tr) -> following tr -> tidy s ->
  snd (rstep s (RLookup p)) = RFound (live_at p tr).
Proof. exact lookup_tidy. Qed.
Print Assumptions C40_lookup.

(** False: a path announced again before the cleanup of its predecessor ran makes the receiver fail,
    although the messages alternate. *)
Theorem C40_race_refuted : exists ops s tr path, rrun (rsys_new []) ops = (s, tr) /\ following tr /\
  live_at path tr = None /\ snd (rstep s (RMsg (Active path))) = RLeft (Some Duplicate).
Proof.
  set (ops := [RMsg (Active pa); RMsg (Ended pa)]).
  exists ops, (fst (rrun (rsys_new []) ops)), (snd (rrun (rsys_new []) ops)), pa.
  split; [destruct (rrun (rsys_new []) ops); reflexivity|].
  split; [|split; reflexivity].
  assert (E : snd (rrun (rsys_new []) ops) = [(RMsg (Active pa), RAnnounced pa 0); (RMsg (Ended pa), REnded pa 0)]) by reflexivity.
  rewrite E. intros e [<-|[<-|[]]]; reflexivity.
Qed.
Print Assumptions C40_race_refuted.

Example C40_example :
  map snd (snd (rrun (rsys_new []) [RMsg (Active pa); RMsg (Active pb); RMsg (Ended pa); RLocal (OTask 0); RMsg (Active pa);
    RIsClosed 0; RIsClosed 2; RMsg (Ended pb); RMsg (Ended pb)])) =
  [RAnnounced pa 0; RAnnounced pb 1; REnded pa 0; ROut (ORan pa); RAnnounced pa 2; RClosed true; RClosed false; REnded pb 1; RLeft (Some NotFound)].
Proof. reflexivity. Qed.

(** ** C41: remote announcements arrive under the requested prefix.  Messages carry the path without the
    prefix, so the user should obtain exactly the accepted announcements, in order. *)

(** What they do obtain: those whose remaining path starts with the prefix once more, without it. *)
Theorem C41_seen_exact : forall pre ops s tr, rrun (rsys_new pre) ops = (s, tr) -> following tr ->
  exists rest, rgot tr ++ rest = strips pre (taken tr) /\ (kept s -> forall x r, rest = x :: r -> yields s x).
Proof. exact consumer_sees. Qed.
Print Assumptions C41_seen_exact.

(** For the empty prefix that is every one. *)
Theorem C41_empty_prefix_partial : forall ops s tr, rrun (rsys_new []) ops = (s, tr) -> following tr ->
  exists rest, rgot tr ++ rest = taken tr /\ (kept s -> forall x r, rest = x :: r -> yields s x).
Proof. exact consumer_sees_all. Qed.
Print Assumptions C41_empty_prefix_partial.

(** Subscribing to a broadcast asks the peer for the path in the message, not the path with the prefix. *)
Theorem C41_asks_exact : forall pre ops s tr p b, rrun (rsys_new pre) ops = (s, tr) -> following tr -> ~ In RSession ops ->
  live_at p tr = Some b -> snd (rstep s (RSubscribe b)) = RAsked p.
Proof. exact asks. Qed.
Print Assumptions C41_asks_exact.

(** False for other prefixes: the broadcast never shows up. *)
Theorem C41_seen_refuted : exists pre ops s tr p b, rrun (rsys_new pre) ops = (s, tr) /\ following tr /\ kept s /\
  live_at p tr = Some b /\ forall ops' s' tr', rrun s ops' = (s', tr') -> following tr' -> (forall a, ~ In (RMsg a) ops') -> rgot tr' = [].
Proof.
  set (ops := [RMsg (Active pb)]).
  exists pa, ops, (fst (rrun (rsys_new pa) ops)), (snd (rrun (rsys_new pa) ops)), pb, 0.
  split; [destruct (rrun (rsys_new pa) ops); reflexivity|].
  assert (E : snd (rrun (rsys_new pa) ops) = [(RMsg (Active pb), RAnnounced pb 0)]) by reflexivity.
  split; [rewrite E; intros e [<-|[]]; reflexivity|]. split; [reflexivity|]. split; [reflexivity|].
  intros ops' s' tr' R F N.
  pose proof (rrun_app ops ops' (rsys_new pa)) as A. rewrite (surjective_pairing (rrun (rsys_new pa) ops)), R in A.
  destruct (consumer_sees _ _ _ _ A) as (rest & K & _).
  - rewrite E. intros e [<-|H]; [reflexivity|apply F, H].
  - rewrite E in K. cbn [app] in K. unfold rgot, taken in K. cbn [flat_map rgot_of taken_of app] in K.
    fold (rgot tr') (taken tr') in K. rewrite (taken_silent _ _ _ _ R N) in K. cbn in K.
    destruct (rgot tr'); [reflexivity|discriminate].
Qed.
Print Assumptions C41_seen_refuted.

(** And a subscription made anyway asks for the wrong path: here "ab" instead of "aab". *)
Theorem C41_asks_refuted : exists pre ops s tr p b x, rrun (rsys_new pre) ops = (s, tr) /\ following tr /\
  live_at p tr = Some b /\ In (x, b) (rgot tr) /\ snd (rstep s (RSubscribe b)) <> RAsked (pre ++ p).
Proof.
  set (ops := [RMsg (Active (pa ++ pb)); RLocal (OPop 0)]).
  exists pa, ops, (fst (rrun (rsys_new pa) ops)), (snd (rrun (rsys_new pa) ops)), (pa ++ pb), 0, pb.
  split; [destruct (rrun (rsys_new pa) ops); reflexivity|].
  assert (E : snd (rrun (rsys_new pa) ops) = [(RMsg (Active (pa ++ pb)), RAnnounced (pa ++ pb) 0); (RLocal (OPop 0), ROut (OGot pb 0))]) by reflexivity.
  split; [rewrite E; intros e [<-|[<-|[]]]; reflexivity|]. split; [reflexivity|]. split; [rewrite E; cbn; auto|].
  cbn. discriminate.
Qed.
Print Assumptions C41_asks_refuted.

Example C41_example :
  map snd (snd (rrun (rsys_new []) [RMsg (Active pa); RMsg (Active pb); RLocal (OPop 0); RLocal (OPop 0); RSubscribe 1])) =
  [RAnnounced pa 0; RAnnounced pb 1; ROut (OGot pa 0); ROut (OGot pb 1); RAsked pb].
Proof. reflexivity. Qed.

(** ** C74: broadcasts end with the stream that announced them *)

(** False: the stream ends and the broadcast it announced stays open. *)
Theorem C74_refuted : exists ops s tr p b, rrun (rsys_new []) ops = (s, tr) /\ ~ following tr /\ live_at p tr = Some b /\
  snd (rstep s (RIsClosed b)) = RClosed false.
Proof.
  set (ops := [RMsg (Active pa); REnd None]).
  exists ops, (fst (rrun (rsys_new []) ops)), (snd (rrun (rsys_new []) ops)), pa, 0.
  split; [destruct (rrun (rsys_new []) ops); reflexivity|].
  split; [|split; reflexivity].
  assert (E : snd (rrun (rsys_new []) ops) = [(RMsg (Active pa), RAnnounced pa 0); (REnd None, RLeft None)]) by reflexivity.
  rewrite E. intros F. discriminate (F (REnd None, RLeft None)). cbn. auto.
Qed.
Print Assumptions C74_refuted.

(** And not only sometimes: while the session lasts, a broadcast live when the stream ended or
    failed never ends. *)
Theorem C74_stays_open : forall pre ops1 s1 tr1 p b o s2 e ops2 s3 tr3,
  rrun (rsys_new pre) ops1 = (s1, tr1) -> following tr1 -> live_at p tr1 = Some b ->
  rstep s1 o = (s2, RLeft e) -> rrun s2 ops2 = (s3, tr3) -> ~ In RSession (ops1 ++ ops2) ->
  snd (rstep s3 (RIsClosed b)) = RClosed false.
Proof. exact stays_open. Qed.
Print Assumptions C74_stays_open.

(** What remains of the claim: it ends after the session does. *)
Theorem C74_session_partial : forall pre ops s tr b, rrun (rsys_new pre) ops = (s, tr) -> ~ following tr -> In RSession ops ->
  (forall c, snd (rstep s (RRun c)) = RBad) -> snd (rstep s (RIsClosed b)) <> RClosed false.
Proof. exact closes. Qed.
Print Assumptions C74_session_partial.

Example C74_example :
  map snd (snd (rrun (rsys_new []) [RMsg (Active pa); REnd None; RIsClosed 0; RSession; RRun 0; RIsClosed 0])) =
  [RAnnounced pa 0; RLeft None; RClosed false; RUnit; RUnit; RClosed true].
Proof. reflexivity. Qed.
