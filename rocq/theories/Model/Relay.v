(** A relay: its two origins, the sessions accepted from users and peers and dialled to peers, and the
    tasks forwarding announcements between them (rs/moq-relay/src/{connection,cluster}.rs,
    rs/moq/src/model/origin.rs:93-119, rs/moq/src/session/mod.rs).

    Every origin is an [osys]; origin 0 is [Cluster::locals], origin 1 [Cluster::remotes]
    (cluster.rs:38-42), every session adds two: the one its [Publisher] announces from
    (publisher.rs:13-16) and the one its announcements from the peer are put in (the [OriginProducer]
    made by [Subscriber::consume_prefix]).  All origins share one numbering of broadcasts.
    What the peer announces is arbitrary (ReceiverSys models how announcements are received); the wire
    is not modelled here. *)
From Coq Require Import NArith List Bool.
From Coq Require Import Init.Byte Strings.Byte.
From Verif.Model Require Import Base ErrorCode Stream Frame FrameSys Map OriginSys Text Auth.
Import ListNotations.
Open Scope nat_scope.

(** A task spawned by [OriginProducer::publish_prefix] (origin.rs:99-119): it owns consumer [fw_cons] of
    origin [fw_src] and producer [fw_prod] of origin [fw_dst].  [fw_wait]: suspended in the consumer's
    [notify.recv()]; [fw_hold]: what [next] returned and is not yet published. *)
Record fwd := Fwd {
  fw_src : nat; fw_cons : nat; fw_dst : nat; fw_prod : nat; fw_prefix : bytes;
  fw_wait : bool; fw_hold : option (bytes * nat); fw_over : bool }.

(** What is left to do of [Connection::run] (connection.rs:12-52) or [run_remote_once]
    (cluster.rs:167-188) before it waits for the session to close. *)
Inductive action :=
| AForward (src : nat) (pre : bytes) (dst : nat) (prefix : bytes)   (* dst.publish_prefix(prefix, src.consume_prefix(pre)) *)
| AForce (path : bytes).                                           (* locals.publish(path, session.consume(..)) *)

Record relay := Relay { rl_origins : list osys; rl_fwds : list fwd; rl_todo : list (list action); rl_pubs : list nat }.
Definition relay_new : relay := Relay [osys_new; osys_new] [] [] [].

(** connection.rs:23-47; [p], [r]: the session's two origins.  The two [consume_prefix] calls of lines
    25-26 precede both [publish_prefix] calls; here a task may start before the second
    [consume_prefix], which only adds schedules. *)
Definition accept_actions (t : payload) (p r : nat) : list action :=
  (match pl_subscribe t with
   | Some sub => [AForward 0 (pl_path t ++ sub) p sub; AForward 1 (pl_path t ++ sub) p sub]
   | None => []
   end) ++
  (match pl_publish t with Some pub => [AForward r pub 0 (pl_path t ++ pub)] | None => [] end) ++
  (match pl_force t with Some f => [AForce (pl_path t ++ f)] | None => [] end).
(** cluster.rs:179-185 *)
Definition dial_actions (p r : nat) : list action := [AForward 0 [] p []; AForward r [] 1 []].

Inductive rlop :=
| RlNew                                   (* a broadcast comes into being *)
| RlEnd (b : nat)                         (* it ends *)
| RlAccept (t : payload)                  (* a session is accepted with a validated token (main.rs:42-61) *)
| RlDial                                  (* a session to a peer is established *)
| RlSetup (s : nat) (ks : list nat)       (* the next action of session [s]; [ks]: HashMap order *)
| RlStep (k : nat)                        (* forwarding task [k] runs up to its next critical section *)
| RlOrigin (i : nat) (o : oop).           (* any other use of an origin *)

(** [ro_opened]: the origins of a new session; [ro_started]: the task started;
    [ro_did]: the operations on origins. *)
Record rlout := RlOut { ro_opened : option (nat * nat); ro_started : option nat; ro_did : list (nat * (oop * oout)) }.
Definition quiet : rlout := RlOut None None [].
Definition did (l : list (nat * (oop * oout))) : rlout := RlOut None None l.

(** One operation on origin [i]. *)
Definition at_origin (i : nat) (o : oop) (l : list osys) : list osys * list (nat * (oop * oout)) :=
  match nth_error l i with
  | Some s => let (s', x) := ostep s o in (set_nth i s' l, [(i, (o, x))])
  | None => (l, [])
  end.
(** The same operation on all origins from [i] on. *)
Fixpoint at_all (i : nat) (o : oop) (l : list osys) : list osys * list (nat * (oop * oout)) :=
  match l with
  | [] => ([], [])
  | s :: l => let (s', x) := ostep s o in let (l', ev) := at_all (S i) o l in (s' :: l', (i, (o, x)) :: ev)
  end.
(** Operations making an empty origin aware of the broadcasts that exist. *)
Fixpoint catch_up (i : nat) (closed : list bool) : list oop :=
  match closed with
  | [] => []
  | c :: r => ONew :: (if c : bool then [OEnd i] else []) ++ catch_up (S i) r
  end.
Definition fresh (l : list osys) : osys * list (oop * oout) :=
  orun osys_new (catch_up 0 (match l with s :: _ => os_closed s | [] => [] end)).

(** A session is made of two new origins. *)
Definition open_session (todo : nat -> nat -> list action) (s : relay) : relay * rlout :=
  let n := length (rl_origins s) in
  let (o, ev) := fresh (rl_origins s) in
  (Relay (rl_origins s ++ [o; o]) (rl_fwds s) (rl_todo s ++ [todo n (S n)]) (rl_pubs s ++ [n]),
   RlOut (Some (n, S n)) None (map (fun e => (n, e)) ev ++ map (fun e => (S n, e)) ev)).

(** The handles a forwarding task owns are used by nobody else; announcements are made in [locals],
    [remotes] and the publishers of sessions by the tasks alone (no other code of the relay does), and
    [locals] and [remotes] are kept by the cluster handle in main.rs:23.  The first handles of a
    session's origins are held while its set-up refers to them (the [Session] in connection.rs:13, the
    producer made by [consume_prefix]). *)
Definition owns_cons (i c : nat) (f : fwd) : bool := Nat.eqb (fw_src f) i && Nat.eqb (fw_cons f) c.
Definition owns_prod (i p : nat) (f : fwd) : bool := Nat.eqb (fw_dst f) i && Nat.eqb (fw_prod f) p.
Definition refers (i : nat) (a : action) : bool :=
  match a with AForward src _ dst _ => Nat.eqb src i || Nat.eqb dst i | AForce _ => false end.
Definition may (s : relay) (i : nat) (o : oop) : bool :=
  let consumer c := negb (existsb (owns_cons i c) (rl_fwds s)) in
  let producer p := negb (existsb (owns_prod i p) (rl_fwds s)) in
  match o with
  | ONew | OEnd _ => false
  | OPublish p _ _ => producer p && negb (Nat.ltb i 2) && negb (existsb (Nat.eqb i) (rl_pubs s))
  | OTask _ | OCloneLink _ => true
  | OLookup p _ | OConsume p _ _ | OClone p | OUnused p => producer p
  | ODrop p => producer p && negb (Nat.eqb p 0 && (Nat.ltb i 2 || existsb (existsb (refers i)) (rl_todo s)))
  | OPop c | ORecv c | OCancel c | OCDrop c | OCloneCopy c => consumer c
  end.

Definition with_fwd (s : relay) (k : nat) (os : list osys) (f : fwd) : relay :=
  Relay os (set_nth k f (rl_fwds s)) (rl_todo s) (rl_pubs s).

Definition rlstep (s : relay) (o : rlop) : relay * rlout :=
  match o with
  | RlNew => let (os, ev) := at_all 0 ONew (rl_origins s) in (Relay os (rl_fwds s) (rl_todo s) (rl_pubs s), did ev)
  | RlEnd b => let (os, ev) := at_all 0 (OEnd b) (rl_origins s) in (Relay os (rl_fwds s) (rl_todo s) (rl_pubs s), did ev)
  | RlAccept t => open_session (accept_actions t) s
  | RlDial => open_session dial_actions s
  | RlSetup n ks =>
      match nth_error (rl_todo s) n with
      | Some (AForward src pre dst prefix :: rest) =>
          match nth_error (rl_origins s) src, nth_error (rl_origins s) dst with
          | Some a, Some b =>
              let (os1, ev1) := at_origin src (OConsume 0 pre ks) (rl_origins s) in
              let (os2, ev2) := at_origin dst (OClone 0) os1 in
              match get (os_prods a) 0, get (os_prods b) 0 with
              | Some _, Some _ =>
                  (Relay os2 (rl_fwds s ++ [Fwd src (length (os_cons a)) dst (length (os_prods b)) prefix false None false])
                     (set_nth n rest (rl_todo s)) (rl_pubs s),
                   RlOut None (Some (length (rl_fwds s))) (ev1 ++ ev2))
              | _, _ => (s, quiet)
              end
          | _, _ => (s, quiet)
          end
      | Some (AForce path :: rest) =>
          let b := match rl_origins s with a :: _ => length (os_closed a) | [] => 0 end in
          let (os1, ev1) := at_all 0 ONew (rl_origins s) in
          let (os2, ev2) := at_origin 0 (OPublish 0 path b) os1 in
          (Relay os2 (rl_fwds s) (set_nth n rest (rl_todo s)) (rl_pubs s), did (ev1 ++ ev2))
      | _ => (s, quiet)
      end
  | RlStep k =>
      match nth_error (rl_fwds s) k with
      | Some (Fwd src c dst p prefix wait hold false) =>
          match hold with
          | Some (suffix, b) =>                                            (* origin.rs:111-116 *)
              let (os, ev) := at_origin dst (OPublish p (prefix ++ suffix) b) (rl_origins s) in
              (with_fwd s k os (Fwd src c dst p prefix wait None false), did ev)
          | None =>                                                        (* origin.rs:110, 182-194 *)
              if wait then
                let (os, ev) := at_origin src (ORecv c) (rl_origins s) in
                match ev with
                | [(_, (_, OWoken))] => (with_fwd s k os (Fwd src c dst p prefix false None false), did ev)
                | [(_, (_, ODone))] =>                                     (* the task ends, dropping its handles *)
                    let (os1, ev1) := at_origin src (OCDrop c) os in
                    let (os2, ev2) := at_origin dst (ODrop p) os1 in
                    (with_fwd s k os2 (Fwd src c dst p prefix false None true), did (ev ++ ev1 ++ ev2))
                | _ => (with_fwd s k os (Fwd src c dst p prefix true None false), did ev)
                end
              else
                let (os, ev) := at_origin src (OPop c) (rl_origins s) in
                match ev with
                | [(_, (_, OGot suffix b))] => (with_fwd s k os (Fwd src c dst p prefix false (Some (suffix, b)) false), did ev)
                | _ => (with_fwd s k os (Fwd src c dst p prefix true None false), did ev)
                end
          end
      | _ => (s, quiet)
      end
  | RlOrigin i o =>
      if may s i o then let (os, ev) := at_origin i o (rl_origins s) in (Relay os (rl_fwds s) (rl_todo s) (rl_pubs s), did ev)
      else (s, quiet)
  end.

Fixpoint rlrun (s : relay) (ops : list rlop) : relay * list (rlop * rlout) :=
  match ops with
  | [] => (s, [])
  | o :: ops => let (s1, x) := rlstep s o in let (s2, tr) := rlrun s1 ops in (s2, (o, x) :: tr)
  end.

(** cluster.rs:57-61 [Cluster::get]: [locals] and then [remotes] are locked one after the other, so the
    second state may be a later one. *)
Definition cluster_get (locals remotes : osys) (path : bytes) : option nat :=
  match lookup path (os_active locals) with
  | Some b => Some b
  | None => lookup path (os_active remotes)
  end.
