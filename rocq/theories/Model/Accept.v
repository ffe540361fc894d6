(** moq-native/src/server.rs:140-161 [Server::accept] and moq-relay/src/main.rs:40-63: the loop of the relay that lets clients in.

    Clients are numbered in the order in which they reach the endpoint.  [url]: what [conn.url()] gives; [token]: what [Auth::validate]
    returns (Auth.v; a parameter here).  One [AcPoll] is one round of the [select!] of 142-159 together with what main.rs does with the result.
    Simplified: the handshake (163-207) is the event [AcShake] with its result; QUIC and TLS are not modelled.  What a served client does is Relay.v.
    The code after [accept] has returned [None] only waits and ends the process, so nothing happens any more. *)
From Coq Require Import List Bool Arith.
From Verif.Model Require Import Base.
Import ListNotations.
Open Scope nat_scope.

Section Accept.
Context {url token : Type}.

(** An element of [self.accept] (server.rs:74); [ShDone None]: an error.  [ShTaken]: it has been removed by [next]. *)
Inductive shake := ShBusy | ShDone (r : option url) | ShTaken.

(** The listener of [tokio::signal::ctrl_c()] (152).  The future of a round is dropped with the round, and a new one does not hear of earlier signals.
    [SgNone]: no round has begun, so the signal still ends the process; [SgDeaf]: between two rounds; [SgOn f]: a round is waiting,
    [f]: a signal has come since it began to. *)
Inductive listener := SgNone | SgDeaf | SgOn (f : bool).

(** [ac_arrived]: clients that reached the endpoint; [ac_shakes]: those of them taken from it, in order; [ac_id]: [conn_id] (main.rs:40);
    [ac_lost]: the endpoint has failed; [ac_over]: the loop or the process is over. *)
Record acc := Acc { ac_arrived : nat; ac_shakes : list shake; ac_sig : listener; ac_id : nat; ac_lost : bool; ac_over : bool }.
Definition ac_init : acc := Acc 0 [] SgNone 0 false false.

(** The three branches of the [select!]; it takes any that is ready.  [next] (147) gives any handshake that has ended. *)
Inductive branch := BEndpoint | BShake (k : nat) | BSignal.

Inductive acop :=
| AcArrive                              (* a client reaches the endpoint *)
| AcShake (k : nat) (r : option url)    (* the handshake of client [k] ends *)
| AcLose                                (* the endpoint fails *)
| AcSignal                              (* ctrl-c *)
| AcPoll (b : branch).                  (* the loop goes on *)

Inductive acout :=
| AcNothing                             (* not possible *)
| AcDone
| AcHeard | AcMissed | AcKilled         (* a signal *)
| AcBegun (k : nat)                     (* the handshake of [k] begins *)
| AcFailed (k : nat)                    (* the handshake of [k] had failed *)
| AcServed (k id : nat) (t : token)     (* a Connection is run *)
| AcRefused (k : nat)                   (* closed with code 1 *)
| AcCrashed (k : nat)                   (* [validate] panics *)
| AcPending                             (* nothing is ready: the loop waits *)
| AcStopped.                            (* [accept] returns [None], main returns *)

Fixpoint sh_set (l : list shake) (k : nat) (x : shake) : list shake :=
  match l, k with
  | [], _ => []
  | _ :: l', O => x :: l'
  | y :: l', S k' => y :: sh_set l' k' x
  end.
Definition sh_done (x : shake) : bool := match x with ShDone _ => true | _ => false end.

(** server.rs:143, 147, 152: the branches that are ready *)
Definition rd_endpoint (s : acc) : bool := ac_lost s || (length (ac_shakes s) <? ac_arrived s).
Definition rd_shake (s : acc) : bool := existsb sh_done (ac_shakes s).
Definition rd_signal (s : acc) : bool := match ac_sig s with SgOn f => f | _ => false end.

Definition ac_halt (s : acc) : acc := Acc (ac_arrived s) (ac_shakes s) (ac_sig s) (ac_id s) (ac_lost s) true.
(** The end of a round: its listener is gone. *)
Definition ac_round (s : acc) (sh : list shake) (id : nat) : acc := Acc (ac_arrived s) sh SgDeaf id (ac_lost s) false.
(** A round that waits: the listener exists, and keeps what it has heard. *)
Definition ac_wait (s : acc) : acc :=
  Acc (ac_arrived s) (ac_shakes s) (match ac_sig s with SgOn f => SgOn f | _ => SgOn false end) (ac_id s) (ac_lost s) false.

(** main.rs:43-60 for the client [k] with URL [u] *)
Definition ac_admit (validate : url -> res (option token)) (s : acc) (k : nat) (u : url) : acc * acout :=
  let sh := sh_set (ac_shakes s) k ShTaken in
  match validate u with
  | Val (Some t) => (ac_round s sh (S (ac_id s)), AcServed k (ac_id s) t)
  | Val None => (ac_round s sh (ac_id s), AcRefused k)
  | Panic => (ac_halt (ac_round s sh (ac_id s)), AcCrashed k)
  end.

(** server.rs:142-159 *)
Definition ac_poll (validate : url -> res (option token)) (s : acc) (b : branch) : acc * acout :=
  if negb (rd_endpoint s) && negb (rd_shake s) && negb (rd_signal s) then (ac_wait s, AcPending) else
  match b with
  | BEndpoint =>                                                                         (* 143-146 *)
      if ac_lost s then (ac_halt s, AcStopped)
      else if length (ac_shakes s) <? ac_arrived s
      then (ac_round s (ac_shakes s ++ [ShBusy]) (ac_id s), AcBegun (length (ac_shakes s)))
      else (s, AcNothing)
  | BShake k =>                                                                          (* 147-151 *)
      match nth_error (ac_shakes s) k with
      | Some (ShDone (Some u)) => ac_admit validate s k u
      | Some (ShDone None) => (ac_round s (sh_set (ac_shakes s) k ShTaken) (ac_id s), AcFailed k)
      | _ => (s, AcNothing)
      end
  | BSignal => if rd_signal s then (ac_halt s, AcStopped) else (s, AcNothing)            (* 152-158 *)
  end.

Definition ac_step (validate : url -> res (option token)) (s : acc) (o : acop) : acc * acout :=
  if ac_over s then (s, AcNothing) else
  match o with
  | AcArrive => (Acc (S (ac_arrived s)) (ac_shakes s) (ac_sig s) (ac_id s) (ac_lost s) false, AcDone)
  | AcShake k r =>
      match nth_error (ac_shakes s) k with
      | Some ShBusy => (Acc (ac_arrived s) (sh_set (ac_shakes s) k (ShDone r)) (ac_sig s) (ac_id s) (ac_lost s) false, AcDone)
      | _ => (s, AcNothing)
      end
  | AcLose => (Acc (ac_arrived s) (ac_shakes s) (ac_sig s) (ac_id s) true false, AcDone)
  | AcSignal =>
      match ac_sig s with
      | SgNone => (ac_halt s, AcKilled)
      | SgDeaf => (s, AcMissed)
      | SgOn _ => (Acc (ac_arrived s) (ac_shakes s) (SgOn true) (ac_id s) (ac_lost s) false, AcHeard)
      end
  | AcPoll b => ac_poll validate s b
  end.

Fixpoint ac_run (validate : url -> res (option token)) (s : acc) (ops : list acop) : acc * list (acop * acout) :=
  match ops with
  | [] => (s, [])
  | o :: ops' =>
      let (s1, x) := ac_step validate s o in
      let (s2, tr) := ac_run validate s1 ops' in
      (s2, (o, x) :: tr)
  end.
End Accept.
Arguments shake : clear implicits.
Arguments acc : clear implicits.
Arguments acop : clear implicits.
Arguments acout : clear implicits.
