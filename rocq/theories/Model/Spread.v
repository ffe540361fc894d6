(** How announcements spread: any number of origins, the tasks forwarding announcements between origins of
    one program, and the sessions carrying them from an origin of one program to one of another
    (rs/moq/src/model/origin.rs, session/publisher.rs:41-107, session/subscriber.rs:36-106).

    An origin is an [osys] (OriginSys.v).  A session's announce stream is: the loop of the publishing side
    ([ann] of Publisher.v, reading a consumer of its origin), the messages on their way, and the loop of
    the receiving side ([rsys] of ReceiverSys.v), which publishes to an origin of its own.  All origins
    share one numbering of broadcasts.  The origin inside a [Publisher] (publisher.rs:13-16) is an origin
    like any other, filled by a forwarding task or by the application. *)
From Coq Require Import NArith List Bool.
From Coq Require Import Init.Byte Strings.Byte.
From Verif.Model Require Import OriginSys Base Coding Message ErrorCode Stream Frame FrameSys Map Publisher ReceiverSys.
Import ListNotations.
Open Scope nat_scope.

(** A task spawned by [OriginProducer::publish_prefix] (origin.rs:99-119), owning consumer [lk_cons] of
    origin [lk_src], which was made for prefix [lk_pre].  [lk_wait]: suspended in the consumer's [notify.recv()]; [lk_hold]: what [next]
    returned and is not yet published; [lk_over]: it has ended. *)
Record link := Link {
  lk_src : nat; lk_cons : nat; lk_pre : bytes; lk_dst : nat; lk_add : bytes;
  lk_wait : bool; lk_hold : option (bytes * nat); lk_over : bool }.

(** An announce stream for prefix [hp_pre].  The publishing loop owns consumer [hp_cons] of origin [hp_src]; [hp_wire]: the
    messages written and not yet decoded.  The receiving loop fills origin [hp_dst] and has the state
    [hp_map], [hp_left], [hp_runs], [hp_open] ([rv_map], [rv_over], [rv_bcasts], [rv_session]; in
    [hp_runs] the broadcasts made by others are marked as having no task). *)
Record hop := Hop {
  hp_src : nat; hp_cons : nat; hp_pre : bytes; hp_dst : nat; hp_ann : ann; hp_wire : list announce;
  hp_map : map_of nat; hp_left : option (option error); hp_runs : list (bytes * bool); hp_open : bool }.

(** [sp_mine]: the broadcasts made by the application. *)
Record spread := Spread { sp_origins : list osys; sp_links : list link; sp_hops : list hop; sp_mine : list nat }.
Definition spread_new : spread := Spread [] [] [] [].

(** Which broadcasts are closed. *)
Definition sp_closed (s : spread) : list bool := match sp_origins s with o :: _ => os_closed o | [] => [] end.
Definition with_closed (c : list bool) (o : osys) : osys :=
  OSys (os_active o) (os_vec o) (os_cons o) (os_copies o) (os_prods o) (os_tasks o) c.
Definition with_runs (n : nat) (p : hop) : hop :=
  Hop (hp_src p) (hp_cons p) (hp_pre p) (hp_dst p) (hp_ann p) (hp_wire p) (hp_map p) (hp_left p)
    (hp_runs p ++ repeat ([], false) (n - length (hp_runs p))) (hp_open p).
(** Broadcasts were made or closed. *)
Definition everywhere (c : list bool) (s : spread) : spread :=
  Spread (map (with_closed c) (sp_origins s)) (sp_links s) (map (with_runs (length c)) (sp_hops s)) (sp_mine s).
Definition shut (c : list bool) : list nat := filter (fun b => nth b c false) (seq 0 (length c)).
(** The publishing loop knows which broadcasts are closed when it polls. *)
Definition knowing (c : list nat) (a : ann) : ann := Ann (an_queue a) (an_gone a) c (an_active a) (an_tasks a) (an_over a).

Inductive spop :=
| SNode                                                    (* the application makes an origin *)
| SNew                                                     (* it makes a broadcast *)
| SEnd (b : nat)                                           (* it finishes it, or drops its producers *)
| SPublish (n : nat) (path : bytes) (b : nat)              (* origin n: publish *)
| SUse (n : nat) (o : oop)                                 (* any other use of origin n *)
| SLink (a : nat) (pre : bytes) (ks : list nat) (b : nat) (add : bytes)
    (* b.publish_prefix(add, a.consume_prefix(pre)); [ks]: HashMap order *)
| SHop (a : nat) (pre : bytes) (ks : list nat) (b : nat) (add : bytes)
    (* a session whose peer publishes origin a: b.publish_prefix(add, session.consume_prefix(pre)) *)
| SFail (h : nat)                                          (* the session of hop h closes *)
| SClean (n k : nat)                                       (* cleanup task k of origin n runs *)
| SStep (k : nat)                                          (* forwarding task k runs up to its next critical section *)
| STurn (h j : nat) (ks : list nat)                        (* the publishing loop of hop h polls its select *)
| SRead (h : nat)                                          (* the receiving loop decodes a message *)
| SLeave (h : nat)                                         (* ... notices that the session closed *)
| SIdle (h : nat)                                          (* ... polls unused() (subscriber.rs:56) *)
| SGone (h b : nat)                                        (* the task of broadcast b notices that the session closed *)
| SClosed (b : nat).                                       (* poll closed() on a consumer of broadcast b *)

(** [so_did]: the operations on origins; [so_made]: the origin, hop or broadcast made; [so_ok]: whether the
    operation was possible, and for [SClosed] whether the broadcast is closed. *)
Record spout := SpOut { so_did : list (nat * (oop * oout)); so_made : option nat; so_ok : bool }.
Definition fine (l : list (nat * (oop * oout))) : spout := SpOut l None true.
Definition bad : spout := SpOut [] None false.

(** One operation on origin [i]. *)
Definition on_origin (i : nat) (o : oop) (l : list osys) : list osys * list (nat * (oop * oout)) :=
  match nth_error l i with
  | Some s => let (s', x) := ostep s o in (set_nth i s' l, [(i, (o, x))])
  | None => (l, [])
  end.

(** The origins the application has a producer of: those made by [consume_prefix] on a session stay there
    (subscriber.rs:40-43). *)
Definition own (s : spread) (n : nat) : bool :=
  Nat.ltb n (length (sp_origins s)) && negb (existsb (fun h => Nat.eqb (hp_dst h) n) (sp_hops s)).
(** Uses of an origin by the application: its consumers, except those that were handed over, and lookups.
    The application keeps its producers for the whole run. *)
Definition held (s : spread) (n c : nat) : bool :=
  existsb (fun l => Nat.eqb (lk_src l) n && Nat.eqb (lk_cons l) c) (sp_links s) ||
  existsb (fun h => Nat.eqb (hp_src h) n && Nat.eqb (hp_cons h) c) (sp_hops s).
Definition usable (s : spread) (n : nat) (o : oop) : bool :=
  match o with
  | OLookup _ _ | OConsume _ _ _ | OCloneLink _ => true
  | OPop c | ORecv c | OCancel c | OCDrop c | OCloneCopy c => negb (held s n c)
  | _ => false
  end.

Definition with_origins (s : spread) (os : list osys) : spread := Spread os (sp_links s) (sp_hops s) (sp_mine s).
Definition with_link (s : spread) (k : nat) (os : list osys) (l : link) : spread :=
  Spread os (set_nth k l (sp_links s)) (sp_hops s) (sp_mine s).
Definition with_hop (s : spread) (h : nat) (os : list osys) (p : hop) : spread :=
  Spread os (sp_links s) (set_nth h p (sp_hops s)) (sp_mine s).

(** The receiving loop of a hop (ReceiverSys.v), its origin taken from the list. *)
Definition receive (s : spread) (h : nat) (p : hop) (o : rop) : spread * rout :=
  match nth_error (sp_origins s) (hp_dst p) with
  | None => (s, RBad)
  | Some r =>
      let (rs, x) := rstep (RSys r (hp_map p) (hp_left p) (hp_runs p) (hp_open p)) o in
      (everywhere (os_closed (rv_origin rs))
         (with_hop s h (set_nth (hp_dst p) (rv_origin rs) (sp_origins s))
            (Hop (hp_src p) (hp_cons p) (hp_pre p) (hp_dst p) (hp_ann p) (hp_wire p) (rv_map rs) (rv_over rs) (rv_bcasts rs) (rv_session rs))), x)
  end.
(** What a decoded message makes the receiving loop do to its origin (subscriber.rs:79-100). *)
Definition publication (p : hop) (a : announce) (made : nat) (x : rout) : list (nat * (oop * oout)) :=
  match a, x with
  | Active path, RAnnounced _ _ => [(hp_dst p, (OPublish 0 path made, OUnique true))]
  | Active path, _ => [(hp_dst p, (OPublish 0 path made, OUnique false))]
  | Ended _, _ => []
  end.

Definition spstep (s : spread) (o : spop) : spread * spout :=
  match o with
  | SNode => (with_origins s (sp_origins s ++ [with_closed (sp_closed s) osys_new]), SpOut [] (Some (length (sp_origins s))) true)
  | SNew =>
      match sp_origins s with
      | [] => (s, bad)                                              (* no origin yet *)
      | _ => let s' := everywhere (sp_closed s ++ [false]) s in
             (Spread (sp_origins s') (sp_links s') (sp_hops s') (sp_mine s ++ [length (sp_closed s)]),
              SpOut [] (Some (length (sp_closed s))) true)
      end
  | SEnd b =>
      if existsb (Nat.eqb b) (sp_mine s)
      then (everywhere (set_nth b true (sp_closed s)) s, fine [])
      else (s, bad)
  | SPublish n path b =>                                            (* origin.rs:80-91 *)
      if own s n && existsb (Nat.eqb b) (sp_mine s)
      then let (os, ev) := on_origin n (OPublish 0 path b) (sp_origins s) in (with_origins s os, fine ev)
      else (s, bad)
  | SUse n o =>
      if own s n && usable s n o
      then let (os, ev) := on_origin n o (sp_origins s) in (with_origins s os, fine ev)
      else (s, bad)
  | SLink a pre ks b add =>
      if own s a && own s b
      then let c := match nth_error (sp_origins s) a with Some o => length (os_cons o) | None => 0 end in
           let (os, ev) := on_origin a (OConsume 0 pre ks) (sp_origins s) in
           (Spread os (sp_links s ++ [Link a c pre b add false None false]) (sp_hops s) (sp_mine s),
            SpOut ev (Some (length (sp_links s))) true)
      else (s, bad)
  | SHop a pre ks b add =>                                          (* subscriber.rs:36-47, publisher.rs:64 *)
      if own s a && own s b
      then let c := match nth_error (sp_origins s) a with Some o => length (os_cons o) | None => 0 end in
           let (os, ev) := on_origin a (OConsume 0 pre ks) (sp_origins s) in
           let r := length (sp_origins s) in
           (Spread (os ++ [with_closed (sp_closed s) (rv_origin (rsys_new pre))])
              (sp_links s ++ [Link r 0 pre b add false None false])
              (sp_hops s ++ [Hop a c pre r ann_new [] [] None (repeat ([], false) (length (sp_closed s))) true]) (sp_mine s),
            SpOut ev (Some (length (sp_hops s))) true)
      else (s, bad)
  | SFail h =>
      match nth_error (sp_hops s) h with
      | Some p => let (s', _) := receive s h p RSession in (s', fine [])
      | None => (s, bad)
      end
  | SClean n k => let (os, ev) := on_origin n (OTask k) (sp_origins s) in (with_origins s os, fine ev)
  | SStep k =>
      match nth_error (sp_links s) k with
      | Some (Link src c pre dst add wait hold false) =>
          match hold with
          | Some (suffix, b) =>                                     (* origin.rs:111-116 *)
              let (os, ev) := on_origin dst (OPublish 0 (add ++ suffix) b) (sp_origins s) in
              (with_link s k os (Link src c pre dst add wait None false), fine ev)
          | None =>                                                 (* origin.rs:110, 182-194 *)
              if wait then
                let (os, ev) := on_origin src (ORecv c) (sp_origins s) in
                match ev with
                | [(_, (_, OWoken))] => (with_link s k os (Link src c pre dst add false None false), fine ev)
                | [(_, (_, ODone))] =>
                    let (os1, ev1) := on_origin src (OCDrop c) os in
                    (with_link s k os1 (Link src c pre dst add false None true), fine (ev ++ ev1))
                | _ => (with_link s k os (Link src c pre dst add true None false), fine ev)
                end
              else
                let (os, ev) := on_origin src (OPop c) (sp_origins s) in
                match ev with
                | [(_, (_, OGot suffix b))] => (with_link s k os (Link src c pre dst add false (Some (suffix, b)) false), fine ev)
                | _ => (with_link s k os (Link src c pre dst add true None false), fine ev)
                end
          end
      | _ => (s, bad)
      end
  | STurn h j ks =>                                                 (* publisher.rs:70-99 *)
      match nth_error (sp_hops s) h with
      | Some (Hop src c pre dst a wire m lf runs open) =>
          if an_over a then (s, bad) else
          let a := knowing (shut (sp_closed s)) a in
          let next a wire os := with_hop s h os (Hop src c pre dst (knowing [] a) wire m lf runs open) in
          if open then
            let (os, ev) := on_origin src (OPop c) (sp_origins s) in
            match ev with
            | [(_, (_, OGot suffix b))] =>
                match nstep (fst (nstep a (NFeed suffix b))) (NTurn APending j ks) with
                | (a', NSent ms) => (next a' (wire ++ ms) os, fine ev)
                | _ => (s, bad)
                end
            | _ =>
                let (os1, ev1) := on_origin src (ORecv c) os in
                match ev1 with
                | [(_, (_, OWoken))] => (next a wire os1, fine (ev ++ ev1))
                | _ =>
                    let (os2, ev2) := on_origin src (OCancel c) os1 in
                    match nstep a (NTurn APending j ks) with
                    | (a', NSent ms) => (next a' (wire ++ ms) os2, fine (ev ++ ev1 ++ ev2))
                    | _ => (next a wire os2, fine (ev ++ ev1 ++ ev2))
                    end
                end
            end
          else                                                      (* 73: the stream failed *)
            let (os, ev) := on_origin src (OCDrop c) (sp_origins s) in
            (next (fst (nstep a (NTurn (AErr WebTransport) j ks))) wire os, fine ev)
      | None => (s, bad)
      end
  | SRead h =>                                                      (* subscriber.rs:77-102 *)
      match nth_error (sp_hops s) h with
      | Some (Hop src c pre dst a (m :: wire) mp None runs open) =>
          let p := Hop src c pre dst a wire mp None runs open in
          let (s', x) := receive s h p (RMsg m) in
          (s', fine (publication p m (length (sp_closed s)) x))
      | _ => (s, bad)
      end
  | SLeave h =>
      match nth_error (sp_hops s) h with
      | Some p => if hp_open p then (s, bad) else let (s', _) := receive s h p (REnd (Some WebTransport)) in (s', fine [])
      | None => (s, bad)
      end
  | SIdle h =>
      match nth_error (sp_hops s) h with
      | Some p => let (s', _) := receive s h p RUnused in (s', fine [])
      | None => (s, bad)
      end
  | SGone h b =>
      match nth_error (sp_hops s) h with
      | Some p => let (s', _) := receive s h p (RRun b) in (s', fine [])
      | None => (s, bad)
      end
  | SClosed b => (s, SpOut [] None (nth b (sp_closed s) false))
  end.

Fixpoint sprun (s : spread) (ops : list spop) : spread * list (spop * spout) :=
  match ops with
  | [] => (s, [])
  | o :: ops => let (s1, x) := spstep s o in let (s2, tr) := sprun s1 ops in (s2, (o, x) :: tr)
  end.
