(** js/moq/src/util/watch.ts:24-40, 73-117, 203-213; broadcast.ts:46-71, 146-164; subscriber.ts:93-111, 124-148: how an endpoint of the
    JavaScript library shares one subscription among all who read a track of a remote broadcast, and when it gives it up.

    One track (one path and name) is followed.  Subscriptions to it are numbered; at most the last one is going.  A reader is what
    [BroadcastConsumer.subscribe] or [TrackConsumer.clone] returned.
    Simplified: what is read is JsTrack.v; the broadcast itself is not closed meanwhile (its own cache, subscriber.ts:87-122, works in the
    same way: one consumer for the caller, one for the cache).  The end of the stream and every error are [HRemote]. *)
From Coq Require Import ZArith List Bool.
Import ListNotations.
Open Scope Z_scope.

(** A TrackProducer and the call of [#runSubscribe] for it.  [hg_count]: [#consumers]; [hg_idle]: [#unused] has settled; [hg_ok]: SUBSCRIBE_OK
    came, so [#unused] is being awaited (subscriber.ts:137); [hg_gone]: what is awaited there has settled; [hg_ended]: 137 is past. *)
Record hgen := HGen { hg_count : Z; hg_idle : bool; hg_ok : bool; hg_gone : bool; hg_ended : bool }.

(** [hs_cons]: the readers, each with the number of its subscription. *)
Record hold := Hold { hs_gens : list hgen; hs_cons : list nat }.
Definition hs_init : hold := Hold [] [].

Inductive hop :=
| HSubscribe         (* BroadcastConsumer.subscribe *)
| HClone (c : nat)   (* TrackConsumer.clone *)
| HClose (c : nat)   (* TrackConsumer.close *)
| HOk                (* SUBSCRIBE_OK comes for the last subscription *)
| HRemote            (* the last subscription is ended by the peer or by an error *)
| HUnused.           (* the last subscription is ended because [unused] has settled *)
Inductive hout := HIdle | HDone | HReader (c g : nat) | HClosed (g : nat) | HStopped (g : nat).

(** watch.ts:100-107 [consume] *)
Definition w_consume (h : hgen) : hgen :=
  HGen (hg_count h + 1) (if hg_count h =? 0 then false else hg_idle h) (hg_ok h) (hg_gone h) (hg_ended h).
(** watch.ts:207-210 with 109-115.  Nothing remembers that this reader was closed before. *)
Definition w_unsubscribe (h : hgen) : hgen :=
  let zero := hg_count h - 1 =? 0 in
  HGen (hg_count h - 1) (zero || hg_idle h) (hg_ok h) (hg_gone h || (hg_ok h && zero)) (hg_ended h).
(** subscriber.ts:134-137: SUBSCRIBE_OK; [unused] gives the promise there is at this moment. *)
Definition w_ok (h : hgen) : hgen := HGen (hg_count h) (hg_idle h) true (hg_idle h) (hg_ended h).
(** subscriber.ts:139, 142 and 103-110: [track.close] or [abort] settles [#unused] too (watch.ts:76, 85); [removeTrack] closes the reader in the cache
    (broadcast.ts:63). *)
Definition w_end (h : hgen) : hgen :=
  let h := HGen (hg_count h) true (hg_ok h) true true in
  w_unsubscribe h.
(** watch.ts:37-39 *)
Definition w_new : hgen := HGen 0 true false false false.

Fixpoint hset {A} (l : list A) (n : nat) (a : A) : list A :=
  match l, n with
  | [], _ => []
  | _ :: l, O => a :: l
  | b :: l, S n => b :: hset l n a
  end.

(** The subscription in the cache: the last one, unless it has ended. *)
Definition current (s : hold) : option (nat * hgen) :=
  match length (hs_gens s) with
  | O => None
  | S g =>
    match nth_error (hs_gens s) g with
    | Some h => if hg_ended h then None else Some (g, h)
    | None => None
    end
  end.

Definition hstep (s : hold) (o : hop) : hold * hout :=
  match o with
  | HSubscribe =>
    match current s with
    | Some (g, h) =>                                                          (* broadcast.ts:149-152 *)
      (Hold (hset (hs_gens s) g (w_consume h)) (hs_cons s ++ [g]), HReader (length (hs_cons s)) g)
    | None =>                                                                 (* 154-158, subscriber.ts:100 *)
      (Hold (hs_gens s ++ [w_consume (w_consume w_new)]) (hs_cons s ++ [length (hs_gens s)]),
       HReader (length (hs_cons s)) (length (hs_gens s)))
    end
  | HClone c =>                                                               (* track.ts:244-246, watch.ts:203-205 *)
    match nth_error (hs_cons s) c with
    | None => (s, HIdle)
    | Some g =>
      match nth_error (hs_gens s) g with
      | None => (s, HIdle)
      | Some h => (Hold (hset (hs_gens s) g (w_consume h)) (hs_cons s ++ [g]), HReader (length (hs_cons s)) g)
      end
    end
  | HClose c =>                                                               (* track.ts:251-252 *)
    match nth_error (hs_cons s) c with
    | None => (s, HIdle)
    | Some g =>
      match nth_error (hs_gens s) g with
      | None => (s, HIdle)
      | Some h => (Hold (hset (hs_gens s) g (w_unsubscribe h)) (hs_cons s), HClosed g)
      end
    end
  | HOk =>
    match current s with
    | Some (g, h) => if hg_ok h then (s, HIdle) else (Hold (hset (hs_gens s) g (w_ok h)) (hs_cons s), HDone)
    | None => (s, HIdle)
    end
  | HRemote =>
    match current s with
    | Some (g, h) => (Hold (hset (hs_gens s) g (w_end h)) (hs_cons s), HStopped g)
    | None => (s, HIdle)
    end
  | HUnused =>
    match current s with
    | Some (g, h) => if hg_gone h then (Hold (hset (hs_gens s) g (w_end h)) (hs_cons s), HStopped g) else (s, HIdle)
    | None => (s, HIdle)
    end
  end.

Fixpoint hrun (s : hold) (ops : list hop) : hold * list (hop * hout) :=
  match ops with
  | [] => (s, [])
  | o :: ops => let (s, out) := hstep s o in let (s, tr) := hrun s ops in (s, (o, out) :: tr)
  end.
