(** What can be seen of a relay: what was announced in which origin, and which sessions there are. *)
From Coq Require Import NArith List Bool.
From Coq Require Import Init.Byte Strings.Byte.
From Verif.Model Require Import Base Map OriginSys Auth Relay.
From Verif.Spec Require Import OriginSpec.
Import ListNotations.
Open Scope nat_scope.

Definition rlevent : Type := rlop * rlout.

(** The history of origin [i]. *)
Definition hist (i : nat) (evs : list (nat * oevent)) : list oevent :=
  flat_map (fun e => if Nat.eqb (fst e) i then [snd e] else []) evs.
Definition events (tr : list rlevent) : list (nat * oevent) := flat_map (fun e => ro_did (snd e)) tr.
Definition history (i : nat) (tr : list rlevent) : list oevent := hist i (events tr).
(** Broadcast [b] was announced at [x] in origin [i]. *)
Definition told (i : nat) (x : bytes) (b : nat) (tr : list rlevent) : Prop := In b (announced x (history i tr)).

(** The sessions: their token if accepted, none if dialled, and the two origins: what is announced to
    the peer, and what the peer announces. *)
Definition opening (e : rlevent) : list (option payload * (nat * nat)) :=
  match ro_opened (snd e) with
  | None => []
  | Some pr => match fst e with RlAccept t => [(Some t, pr)] | RlDial => [(None, pr)] | _ => [] end
  end.
Definition openings (tr : list rlevent) := flat_map opening tr.
Definition accepts (t : payload) (p r : nat) (tr : list rlevent) : Prop := In (Some t, (p, r)) (openings tr).
Definition dialled (p r : nat) (tr : list rlevent) : Prop := In (None, (p, r)) (openings tr).

(** What task [k] announced. *)
Definition passed_of (k : nat) (e : rlevent) : list (bytes * nat) :=
  match e with
  | (RlStep j, out) => if Nat.eqb j k then
      flat_map (fun e => match snd e with (OPublish _ path b, OUnique _) => [(path, b)] | _ => [] end) (ro_did out) else []
  | _ => []
  end.
Definition passed (k : nat) (tr : list rlevent) : list (bytes * nat) := flat_map (passed_of k) tr.
Definition below (pre : bytes) (l : list (bytes * nat)) : list (bytes * nat) := map (fun e => (pre ++ fst e, snd e)) l.

(** Task [k] was started with consumer [c] of origin [src], for [pre], to announce in origin [dst]. *)
Definition started (k src : nat) (pre : bytes) (c dst : nat) (tr : list rlevent) : Prop :=
  exists n ks, In (RlSetup n ks, RlOut None (Some k) [(src, (OConsume 0 pre ks, OConsumer c)); (dst, (OClone 0, OUnit))]) tr.

(** No session has anything left to set up, and no task can make progress. *)
Definition at_rest (s : relay) : Prop :=
  (forall n ks, snd (rlstep s (RlSetup n ks)) = quiet) /\
  (forall k, match ro_did (snd (rlstep s (RlStep k))) with
             | [] | [(_, (ORecv _, OWaits))] => True
             | _ => False
             end).
