(** The pool of sessions shared by the elements of a web page: [Connect] in rs/hang-wasm/src/connect.rs.

    The page is one thread; each step below runs between two suspensions.  Whether and when an attempt to
    connect succeeds, and when a session ends, is up to the network: any order of steps may happen.
    Not modelled: the attempt itself (L90-126, TLS and the certificate hash). *)
From Coq Require Import NArith List Bool.
From Verif.Model Require Import Base Map FrameSys.
Import ListNotations.
Open Scope N_scope.

(** [Connecting]: L68; [Up]: L69-71; [Failed]: the task is gone, its error stays in the channel;
    [Lost]: L77-82, the peer or the network ended it; [Released]: L74, this side ended it. *)
Inductive attempt := Connecting | Up | AttemptFailed | Lost | Released.

(** [pl_cache]: [POOL], L10-13, from URLs to attempts, each entry being a receiver (L56); [pl_tries]: every
    attempt ever made with its URL; [pl_handles]: the [Connect] values of the elements, each a receiver. *)
Record pool := Pool { pl_cache : map_of nat; pl_tries : list (bytes * attempt); pl_handles : table nat }.
Definition pool_new : pool := Pool [] [] [].

Inductive cop :=
| CConnect (u : bytes)          (* Connect::new *)
| CPoll (h : nat)               (* poll of established *)
| CDrop (h : nat)               (* an element is done with its Connect *)
| CDone (n : nat) (ok : bool)   (* the attempt ended *)
| CLost (n : nat)               (* the session was closed by the peer or the network *)
| CUnused (n : nat).            (* the task sees that there are no more receivers *)

(** [CNew n]: a new attempt; [CShared n]: an existing one. *)
Inductive cout := CNew (n : nat) | CShared (n : nat) | CPending | CSession (n : nat) | CError (n : nat) | CUnit | CBad.

Definition with_try (s : pool) (n : nat) (u : bytes) (a : attempt) : pool :=
  Pool (pl_cache s) (set_nth n (u, a) (pl_tries s)) (pl_handles s).

(** Receivers of attempt [n]: the entry of the cache and the handles.  Also the value seen by a handle is the
    last one sent, even when the task is gone. *)
Definition receivers (s : pool) (n : nat) : bool :=
  existsb (fun e => Nat.eqb (snd e) n) (pl_cache s) ||
  existsb (fun h => match h with Some m => Nat.eqb m n | None => false end) (pl_handles s).

Definition cstep (s : pool) (o : cop) : pool * cout :=
  match o with
  | CConnect u =>                                                                   (* L49-61 *)
      match lookup u (pl_cache s) with
      | Some n => (Pool (pl_cache s) (pl_tries s) (pl_handles s ++ [Some n]), CShared n)
      | None =>
        let n := length (pl_tries s) in
        (Pool ((u, n) :: pl_cache s) (pl_tries s ++ [(u, Connecting)]) (pl_handles s ++ [Some n]), CNew n)
      end
  | CPoll h =>                                                                      (* L129-137 *)
      match get (pl_handles s) h with
      | None => (s, CBad)
      | Some n =>
        match nth_error (pl_tries s) n with
        | Some (_, Connecting) => (s, CPending)
        | Some (_, AttemptFailed) => (s, CError n)
        | Some (_, _) => (s, CSession n)
        | None => (s, CBad)
        end
      end
  | CDrop h =>
      match get (pl_handles s) h with
      | None => (s, CBad)
      | Some _ => (Pool (pl_cache s) (pl_tries s) (set_nth h None (pl_handles s)), CUnit)
      end
  | CDone n ok =>                                                                   (* L68-71 *)
      match nth_error (pl_tries s) n with
      | Some (u, Connecting) => (with_try s n u (if ok then Up else AttemptFailed), CUnit)
      | _ => (s, CBad)
      end
  | CLost n =>                                                                      (* L77-82 *)
      match nth_error (pl_tries s) n with
      | Some (u, Up) =>
        let s := with_try s n u Lost in (Pool (remove u (pl_cache s)) (pl_tries s) (pl_handles s), CUnit)
      | _ => (s, CBad)
      end
  | CUnused n =>                                                                    (* L74 *)
      match nth_error (pl_tries s) n with
      | Some (u, Up) => if receivers s n then (s, CBad) else (with_try s n u Released, CUnit)
      | _ => (s, CBad)
      end
  end.

Fixpoint crun (s : pool) (ops : list cop) : pool * list (cop * cout) :=
  match ops with
  | [] => (s, [])
  | o :: ops =>
    let (s, x) := cstep s o in
    let (s, tr) := crun s ops in
    (s, (o, x) :: tr)
  end.
