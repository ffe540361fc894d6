(** js/moq/src/publisher.ts:13-106, js/moq/src/announced.ts: what an endpoint of the JavaScript library publishes, and how the peer hears of it.

    JavaScript runs one piece of code at a time; an [async] function runs at once up to its first [await].  What comes after an
    [await] is an operation of its own, at any later time.
    Simplified: a path is the list of its UTF-16 units; a broadcast handed to [publish] is a number (two calls with the same object
    have the same number); writing an announcement to the stream is JsWire.v; [abort] of the queue and of a follower (end of the stream)
    is left out: a follower then asks no more. *)
From Coq Require Import NArith List Bool.
From Verif.Model Require Import Base.
Import ListNotations.
Open Scope N_scope.

Definition jpath : Type := list N.

(** [String.startsWith] and [slice], announced.ts:100-104. *)
Fixpoint strip (pre p : jpath) : option jpath :=
  match pre, p with
  | [], _ => Some p
  | a :: pre, b :: p => if a =? b then strip pre p else None
  | _ :: _, [] => None
  end.

Definition jpath_eqb (p q : jpath) : bool := if list_eq_dec N.eq_dec p q then true else false.

(** publisher.ts:13-23, 51-76, 85-95.  [jp_map]: [#broadcasts]; [jp_log]: the queue of [#announced]; [jp_tasks]: the calls of [#runPublish], [None] when done;
    [jp_dead]: the broadcasts whose [closed()] settles; [jp_follow]: the calls of [runAnnounce], prefix and [#index] (announced.ts:75). *)
Record jpub := JPub {
  jp_map : list (jpath * nat);
  jp_log : list (jpath * bool);
  jp_tasks : list (option (jpath * nat));
  jp_dead : list nat;
  jp_follow : list (jpath * nat) }.
Definition jp_init : jpub := JPub [] [] [] [] [].

Inductive pop :=
| PPublish (p : jpath) (b : nat)   (* Publisher.publish *)
| PClose (b : nat)                 (* the broadcast consumer is closed, or its producer is closed or aborted *)
| PFinish (n : nat)                (* #runPublish goes on after 61 *)
| PAsk (p : jpath)                 (* runSubscribe, 105 *)
| PFollow (pre : jpath)            (* runAnnounce, 86 *)
| PNext (f : nat).                 (* runAnnounce, one turn of 88-94 *)

Inductive pout :=
| PIdle | PDone | PTask (n : nat) | PEnded (p : jpath) (b : nat)
| PFound (b : nat) | PNotFound | PFollower (f : nat) | PTold (s : jpath) (active : bool).

(** [Map.get], [set], [delete]. *)
Fixpoint map_get (m : list (jpath * nat)) (p : jpath) : option nat :=
  match m with [] => None | (q, b) :: m => if jpath_eqb q p then Some b else map_get m p end.
Definition map_delete (m : list (jpath * nat)) (p : jpath) : list (jpath * nat) := filter (fun e => negb (jpath_eqb (fst e) p)) m.
Definition map_set (m : list (jpath * nat)) (p : jpath) (b : nat) : list (jpath * nat) := (p, b) :: map_delete m p.

(** announced.ts:93-109 [AnnouncedConsumer.next] from [#index] on, [log] being what is left of the queue: the index afterwards, and the
    announcement if there is one.  The queue is one array that grows, so [when] (watch.ts:182-201) sees all of it. *)
Fixpoint follow_next (log : list (jpath * bool)) (pre : jpath) (i : nat) : nat * option (jpath * bool) :=
  match log with
  | [] => (i, None)
  | (p, a) :: log =>
    match strip pre p with
    | Some s => (S i, Some (s, a))
    | None => follow_next log pre (S i)
    end
  end.

Fixpoint pset {A} (l : list A) (n : nat) (a : A) : list A :=
  match l, n with
  | [], _ => []
  | _ :: l, O => a :: l
  | b :: l, S n => b :: pset l n a
  end.

Definition pstep (s : jpub) (o : pop) : jpub * pout :=
  match o with
  | PPublish p b =>                                                           (* 46-56 *)
    (JPub (map_set (jp_map s) p b) (jp_log s ++ [(p, true)]) (jp_tasks s ++ [Some (p, b)]) (jp_dead s) (jp_follow s),
     PTask (length (jp_tasks s)))
  | PClose b => (JPub (jp_map s) (jp_log s) (jp_tasks s) (b :: jp_dead s) (jp_follow s), PDone)
  | PFinish n =>                                                              (* 61-75 *)
    match nth_error (jp_tasks s) n with
    | Some (Some (p, b)) =>
      if existsb (Nat.eqb b) (jp_dead s) then
        (JPub (map_delete (jp_map s) p) (jp_log s ++ [(p, false)]) (pset (jp_tasks s) n None) (jp_dead s) (jp_follow s), PEnded p b)
      else (s, PIdle)
    | _ => (s, PIdle)
    end
  | PAsk p => (s, match map_get (jp_map s) p with Some b => PFound b | None => PNotFound end)   (* 105-110 *)
  | PFollow pre =>                                                            (* 86; announced.ts:60-62 *)
    (JPub (jp_map s) (jp_log s) (jp_tasks s) (jp_dead s) (jp_follow s ++ [(pre, O)]), PFollower (length (jp_follow s)))
  | PNext f =>
    match nth_error (jp_follow s) f with
    | None => (s, PIdle)
    | Some (pre, i) =>
      let (i, r) := follow_next (skipn i (jp_log s)) pre i in
      (JPub (jp_map s) (jp_log s) (jp_tasks s) (jp_dead s) (pset (jp_follow s) f (pre, i)),
       match r with Some (x, a) => PTold x a | None => PIdle end)
    end
  end.

Fixpoint prun (s : jpub) (ops : list pop) : jpub * list (pop * pout) :=
  match ops with
  | [] => (s, [])
  | o :: ops => let (s, out) := pstep s o in let (s, tr) := prun s ops in (s, (o, out) :: tr)
  end.
