(** Receiving announcements (rs/moq/src/session/subscriber.rs:36-106, 126-162): the loop reading an
    announce stream, the local origin it publishes to, and the task of every broadcast. *)
From Coq Require Import NArith List Bool.
From Coq Require Import Init.Byte Strings.Byte.
From Verif.Model Require Import OriginSys Base Coding Message ErrorCode Stream Frame FrameSys Map.
Import ListNotations.
Open Scope nat_scope.

(** [rv_origin]: the origin made by [consume_prefix] (40); its consumer number 0 is the one returned.
    [rv_map]: the producers kept by the loop (75); [rv_over]: how the loop was left.
    [rv_bcasts]: for each broadcast the path its task subscribes with (92, 141) and whether that task
    still runs; [rv_session]: the session is open. *)
Record rsys := RSys {
  rv_origin : osys; rv_map : map_of nat; rv_over : option (option error);
  rv_bcasts : list (bytes * bool); rv_session : bool }.

(** subscriber.rs:37-46: the origin and its one consumer *)
Definition rsys_new (prefix : bytes) : rsys :=
  RSys (fst (ostep osys_new (OConsume 0 prefix []))) [] None [] true.

(** What others can do with the origin: run its cleanup tasks, use its consumers.  (Its producer stays
    within [run_announced].) *)
Definition local (o : oop) : bool :=
  match o with
  | OTask _ | OPop _ | ORecv _ | OCancel _ | OCDrop _ | OCloneCopy _ | OCloneLink _ => true
  | _ => false
  end.

Inductive rop :=
| RMsg (a : announce)             (* the loop decodes a message *)
| REnd (e : option error)         (* the stream ends (None) or fails, or the answer cannot be finished *)
| RUnused                         (* unused() is polled (56) *)
| RLocal (o : oop)
| RSession                        (* the session closes *)
| RRun (b : nat)                  (* the task of broadcast [b] notices (137) and is gone *)
| RIsClosed (b : nat)             (* poll closed() on a consumer of broadcast [b] *)
| RLookup (path : bytes)          (* what the origin has at [path] (not reachable through the session) *)
| RSubscribe (b : nat).           (* somebody subscribes to a track of [b]: the path asked for (141, 159) *)

Inductive rout :=
| RAnnounced (path : bytes) (b : nat) | REnded (path : bytes) (b : nat) | RLeft (e : option error)
| ROut (x : oout) | RUnit | RClosed (b : bool) | RFound (b : option nat) | RAsked (path : bytes) | RBad.

Definition oend (b : nat) (s : osys) : osys := fst (ostep s (OEnd b)).

(** The loop is left: its producers are dropped (75 and [self]).  A broadcast whose task is gone too has
    no producer left.  The origin's producer goes last (53-64). *)
Definition drop_map (s : rsys) (o : osys) : osys :=
  fold_left (fun o e => match nth_error (rv_bcasts s) (snd e) with
                        | Some (_, false) => oend (snd e) o
                        | _ => o
                        end) (rv_map s) o.
Definition leave (s : rsys) (o : osys) (bs : list (bytes * bool)) (e : option error) : rsys :=
  RSys (fst (ostep (drop_map s o) (ODrop 0))) [] (Some e) bs (rv_session s).

Definition rstep (s : rsys) (o : rop) : rsys * rout :=
  match o with
  | RMsg a =>
      match rv_over s with
      | Some _ => (s, RBad)
      | None =>
        match a with
        | Active path =>                                                            (* 79-93 *)
            let b := length (os_closed (rv_origin s)) in
            let o1 := fst (ostep (rv_origin s) ONew) in
            match ostep o1 (OPublish 0 path b) with
            | (o2, OUnique true) =>
                (RSys o2 (put path b (rv_map s)) None (rv_bcasts s ++ [(path, true)]) (rv_session s), RAnnounced path b)
            | (o2, _) =>                                                            (* 86-88: the producer is dropped *)
                (leave s (oend b o2) (rv_bcasts s ++ [(path, false)]) (Some Duplicate), RLeft (Some Duplicate))
            end
        | Ended path =>                                                             (* 94-100 *)
            match lookup path (rv_map s) with
            | None => (leave s (rv_origin s) (rv_bcasts s) (Some NotFound), RLeft (Some NotFound))
            | Some b => (RSys (oend b (rv_origin s)) (remove path (rv_map s)) None (rv_bcasts s) (rv_session s), REnded path b)
            end
        end
      end
  | REnd e =>
      match rv_over s with
      | Some _ => (s, RBad)
      | None => (leave s (rv_origin s) (rv_bcasts s) e, RLeft e)
      end
  | RUnused =>                                                                      (* 55-58 *)
      match rv_over s with
      | Some _ => (s, RBad)
      | None =>
        match ostep (rv_origin s) (OUnused 0) with
        | (o1, OIdle true) => (leave s o1 (rv_bcasts s) (Some Cancel), RLeft (Some Cancel))
        | (o1, _) => (RSys o1 (rv_map s) None (rv_bcasts s) (rv_session s), RUnit)
        end
      end
  | RLocal o =>
      if local o then
        let (o1, x) := ostep (rv_origin s) o in
        (RSys o1 (rv_map s) (rv_over s) (rv_bcasts s) (rv_session s), ROut x)
      else (s, RBad)
  | RSession => (RSys (rv_origin s) (rv_map s) (rv_over s) (rv_bcasts s) false, RUnit)
  | RRun b =>                                                                       (* 137, 151 *)
      match rv_session s, nth_error (rv_bcasts s) b with
      | false, Some (path, true) =>
          (* its producer is dropped; the loop may still hold another *)
          let o1 := match lookup path (rv_map s) with
                    | Some b' => if Nat.eqb b b' then rv_origin s else oend b (rv_origin s)
                    | None => oend b (rv_origin s)
                    end in
          (RSys o1 (rv_map s) (rv_over s) (set_nth b (path, false) (rv_bcasts s)) false, RUnit)
      | _, _ => (s, RBad)
      end
  | RIsClosed b =>
      match nth_error (os_closed (rv_origin s)) b with Some c => (s, RClosed c) | None => (s, RBad) end
  | RLookup path => (s, RFound (lookup path (os_active (rv_origin s))))
  | RSubscribe b =>
      match nth_error (rv_bcasts s) b with Some (path, true) => (s, RAsked path) | _ => (s, RBad) end
  end.

Fixpoint rrun (s : rsys) (ops : list rop) : rsys * list (rop * rout) :=
  match ops with
  | [] => (s, [])
  | o :: ops => let (s1, x) := rstep s o in let (s2, tr) := rrun s1 ops in (s2, (o, x) :: tr)
  end.
