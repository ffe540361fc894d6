(** js/hang/src/connection.ts:23-105: the connection of a web page to a relay, which reconnects by itself.

    URLs are numbers (equal numbers: the same object).  Calls of [#connect] that have a URL are numbered: attempts, and so are the timers of
    line 85.  The constructor with a URL is [jc_init] and then [JcUrl].
    Simplified: a browser with WebTransport; [Moq.Connection.connect] and [closed] settle when the environment says so.  Effects of solid-js
    rerun within the [set] that changed one of their signals, after their cleanups. *)
From Coq Require Import NArith List Bool Arith.
Import ListNotations.
Open Scope nat_scope.

(** connection.ts:4-19, 40-44 *)
Record jconf := JConf { jf_reload : bool; jf_delay : N; jf_max : N }.

(** What became of an attempt.  [PTry]: [connect] is awaited (68); [POpen]: its connection exists and [closed] is awaited (75);
    [PShut]: the connection was closed by line 96; [POver]: the call is over. *)
Inductive phase := PTry | POpen | PShut | POver.
(** connection.ts:21 without "unsupported" *)
Inductive jstatus := JConnecting | JConnected | JDisconnected.

(** [jc_est]: [established], the attempt whose connection it is; [jc_timers]: what a timer that is still to fire gives to [#tick];
    [jc_dead]: [close] was called. *)
Record jconn := JConn { jc_url : option nat; jc_tick : nat; jc_dead : bool; jc_att : list (nat * phase); jc_est : option nat;
  jc_status : jstatus; jc_delay : N; jc_timers : list (option nat) }.
Definition jc_init (f : jconf) : jconn := JConn None 0 false [] None JDisconnected (jf_delay f) [].

Inductive jcop :=
| JcUrl (u : option nat)   (* url.set *)
| JcConnected (k : nat)    (* Moq.Connection.connect of attempt [k] resolves *)
| JcFailed (k : nat)       (* it rejects *)
| JcLost (k : nat)         (* closed() of the connection of [k] rejects *)
| JcGone (k : nat)         (* it resolves: the peer has closed the session in an orderly way *)
| JcTimer (i : nat)        (* timer [i] fires *)
| JcClose.                 (* Connection.close *)
(** What is seen outside. *)
Inductive jev := EConnect (k u : nat) | EWait (d : N) | EShut (k : nat).
(** [None]: not possible *)
Definition jcout := option (list jev).

Fixpoint ph_set (l : list (nat * phase)) (k : nat) (p : phase) : list (nat * phase) :=
  match l, k with
  | [], _ => []
  | (u, _) :: l', O => (u, p) :: l'
  | x :: l', S k' => x :: ph_set l' k' p
  end.
Fixpoint tm_set (l : list (option nat)) (i : nat) : list (option nat) :=
  match l, i with
  | [], _ => []
  | _ :: l', O => None :: l'
  | x :: l', S i' => x :: tm_set l' i'
  end.
Definition ph_of (s : jconn) (k : nat) : option phase := option_map snd (nth_error (jc_att s) k).

(** connection.ts:64 and 94-99, the cleanups of the last run of the effect; it has any if there was a URL (61). *)
Definition jc_cleanup (s : jconn) : jconn * list jev :=
  match jc_url s with
  | None => (s, [])
  | Some _ =>
      match jc_est s with
      | Some k =>
          match ph_of s k with
          | Some POpen => (JConn (jc_url s) (jc_tick s) (jc_dead s) (ph_set (jc_att s) k PShut) None JDisconnected (jc_delay s) (jc_timers s), [EShut k])
          | _ => (JConn (jc_url s) (jc_tick s) (jc_dead s) (jc_att s) None JDisconnected (jc_delay s) (jc_timers s), [])
          end
      | None => (JConn (jc_url s) (jc_tick s) (jc_dead s) (jc_att s) None JDisconnected (jc_delay s) (jc_timers s), [])
      end
  end.
(** connection.ts:56-68 *)
Definition jc_connect (s : jconn) : jconn * list jev :=
  match jc_url s with
  | None => (s, [])
  | Some u => (JConn (jc_url s) (jc_tick s) (jc_dead s) (jc_att s ++ [(u, PTry)]) (jc_est s) JConnecting (jc_delay s) (jc_timers s),
               [EConnect (length (jc_att s)) u])
  end.
(** The effect reruns: [#tick] and [url] have new values. *)
Definition jc_rerun (s : jconn) (url : option nat) (tick : nat) (timers : list (option nat)) : jconn * list jev :=
  let (s1, e1) := jc_cleanup s in
  let (s2, e2) := jc_connect (JConn url tick (jc_dead s1) (jc_att s1) (jc_est s1) (jc_status s1) (jc_delay s1) timers) in
  (s2, e1 ++ e2).
(** connection.ts:76-90, of attempt [k] *)
Definition jc_catch (f : jconf) (s : jconn) (k : nat) : jconn * list jev :=
  let att := ph_set (jc_att s) k POver in
  if jf_reload f
  then (JConn (jc_url s) (jc_tick s) (jc_dead s) att None JDisconnected (N.min (jc_delay s * 2) (jf_max f)) (jc_timers s ++ [Some (jc_tick s + 1)]),
        [EWait (jc_delay s)])
  else (JConn (jc_url s) (jc_tick s) (jc_dead s) att None JDisconnected (jc_delay s) (jc_timers s), []).

Definition opt_eqb (a b : option nat) : bool :=
  match a, b with Some x, Some y => x =? y | None, None => true | _, _ => false end.
Definition jc_did (x : jconn * list jev) : jconn * jcout := let (s, e) := x in (s, Some e).

Definition jc_step (f : jconf) (s : jconn) (o : jcop) : jconn * jcout :=
  match o with
  | JcUrl u =>
      if jc_dead s then (JConn u (jc_tick s) true (jc_att s) (jc_est s) (jc_status s) (jc_delay s) (jc_timers s), Some [])
      else if opt_eqb u (jc_url s) then (s, Some [])
      else jc_did (jc_rerun s u (jc_tick s) (jc_timers s))
  | JcConnected k =>                                                                     (* 68-73 *)
      match ph_of s k with
      | Some PTry => (JConn (jc_url s) (jc_tick s) (jc_dead s) (ph_set (jc_att s) k POpen) (Some k) JConnected (jf_delay f) (jc_timers s), Some [])
      | _ => (s, None)
      end
  | JcFailed k => match ph_of s k with Some PTry => jc_did (jc_catch f s k) | _ => (s, None) end
  | JcLost k => match ph_of s k with Some POpen => jc_did (jc_catch f s k) | _ => (s, None) end
  | JcGone k =>                                                                          (* 75, 91: nothing follows *)
      match ph_of s k with
      | Some POpen => (JConn (jc_url s) (jc_tick s) (jc_dead s) (ph_set (jc_att s) k POver) (jc_est s) (jc_status s) (jc_delay s) (jc_timers s), Some [])
      | _ => (s, None)
      end
  | JcTimer i =>                                                                         (* 86 *)
      match nth_error (jc_timers s) i with
      | Some (Some t) =>
          let timers := tm_set (jc_timers s) i in
          let tick := Nat.max (jc_tick s) t in
          if jc_dead s || (tick =? jc_tick s)
          then (JConn (jc_url s) tick (jc_dead s) (jc_att s) (jc_est s) (jc_status s) (jc_delay s) timers, Some [])
          else jc_did (jc_rerun s (jc_url s) tick timers)
      | _ => (s, None)
      end
  | JcClose =>                                                                           (* 102-104 *)
      if jc_dead s then (s, Some []) else
      let (s1, e) := jc_cleanup s in
      (JConn (jc_url s1) (jc_tick s1) true (jc_att s1) (jc_est s1) (jc_status s1) (jc_delay s1) (jc_timers s1), Some e)
  end.

Fixpoint jc_run (f : jconf) (s : jconn) (ops : list jcop) : jconn * list (jcop * jcout) :=
  match ops with
  | [] => (s, [])
  | o :: ops' =>
      let (s1, x) := jc_step f s o in
      let (s2, tr) := jc_run f s1 ops' in
      (s2, (o, x) :: tr)
  end.
