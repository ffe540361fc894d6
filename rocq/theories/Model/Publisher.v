(** rs/moq/src/session/publisher.rs: stream priorities, serving a track, announcing, answering
    subscriptions.  [serve_group] is in Transfer.v. *)
From Coq Require Import NArith ZArith List Bool.
From Coq Require Import Init.Byte Strings.Byte.
From Verif.Model Require Import Base Coding ErrorCode Stream Frame FrameSys Map OriginSys Message.
Import ListNotations.

(** [u32 as i32] *)
Definition to_i32 (n : N) : Z := if (n <? 2 ^ 31)%N then Z.of_N n else (Z.of_N n - 2 ^ 32)%Z.

(** publisher.rs:287-290 [stream_priority]: [group_sequence as u32] keeps the low 32 bits, the
    subtraction is u32 arithmetic, [<<] on i32 drops the bits shifted out. *)
Definition stream_priority (m : mode) (track_priority : N) (group_sequence : N) : res Z :=
  let g := (group_sequence mod 2 ^ 32)%N in
  match (if (g <=? 0xFFFFFF)%N then Val (0xFFFFFF - g)%N
         else match m with Debug => Panic | Release => Val (0xFFFFFF + 2 ^ 32 - g)%N end) with
  | Panic => Panic
  | Val d =>
      let sequence := N.land (d mod 2 ^ 32) 0xFFFFFF in
      Val (to_i32 (N.lor (N.shiftl track_priority 24 mod 2 ^ 32) sequence))
  end.

(** * Serving a track (publisher.rs:157-235 [run_track], 148-151) *)

(** Groups are numbered in the order [next_group] returned them.  [tv_old], [tv_new]: the two futures;
    [tv_count]: groups obtained so far; [tv_over]: the loop has been left (or dropped). *)
Record tserve := TServe { tv_old : option nat; tv_new : option nat; tv_count : nat; tv_over : bool }.
Definition tserve_new : tserve := TServe None None 0 false.

(** One turn of the loop: the branch of the select that is taken. *)
Inductive sop :=
| SGroup (seq : N)          (* next_group returned a group *)
| SError (e : error)        (* next_group failed *)
| SNoMore                   (* next_group returned None *)
| SOldDone                  (* the future of the older group completed *)
| SNewDone                  (* that of the newer one *)
| SStop.                    (* the caller drops the loop (publisher.rs:149-152, session gone) *)

(** [cancelled] are the groups whose future is dropped unfinished by this turn (its stream is reset). *)
Inductive sout :=
| SStarted (i : nat) (priority : Z) (cancelled : list nat)
| SCompleted (i : nat) (cancelled : list nat)
| SWaits
| SReturned (r : option error) (cancelled : list nat)
| SPanicked (cancelled : list nat)
| SBad.

Definition opt_list {A} (o : option A) : list A := match o with Some a => [a] | None => [] end.
Definition left_loop (n : nat) : tserve := TServe None None n true.

Definition sstep (m : mode) (prio : N) (s : tserve) (o : sop) : tserve * sout :=
  if tv_over s then (s, SBad) else
  match o with
  | SGroup seq =>                                                            (* 168-217 *)
      match stream_priority m prio seq with
      | Panic => (left_loop (S (tv_count s)), SPanicked (opt_list (tv_old s) ++ opt_list (tv_new s)))
      | Val p =>
          match tv_new s with
          | None => (TServe (tv_old s) (Some (tv_count s)) (S (tv_count s)) false, SStarted (tv_count s) p [])   (* 212-213 *)
          | Some n => (TServe (Some n) (Some (tv_count s)) (S (tv_count s)) false,
                       SStarted (tv_count s) p (opt_list (tv_old s)))                                             (* 214-217 *)
          end
      end
  | SError e => (left_loop (tv_count s), SReturned (Some e) (opt_list (tv_old s) ++ opt_list (tv_new s)))   (* 169 *)
  | SNoMore =>                                                               (* the branch is disabled; 227 *)
      match tv_old s, tv_new s with
      | None, None => (left_loop (tv_count s), SReturned None [])
      | _, _ => (s, SWaits)
      end
  | SOldDone =>                                                              (* 219-221 *)
      match tv_old s with
      | Some i => (TServe None (tv_new s) (tv_count s) false, SCompleted i [])
      | None => (s, SBad)
      end
  | SNewDone =>                                                              (* 222-225 *)
      match tv_new s with
      | Some i => (TServe None None (tv_count s) false, SCompleted i (opt_list (tv_old s)))
      | None => (s, SBad)
      end
  | SStop => (left_loop (tv_count s), SReturned (Some Cancel) (opt_list (tv_old s) ++ opt_list (tv_new s)))
  end.

Fixpoint srun (m : mode) (prio : N) (s : tserve) (ops : list sop) : tserve * list (sop * sout) :=
  match ops with
  | [] => (s, [])
  | o :: ops => let (s1, x) := sstep m prio s o in let (s2, tr) := srun m prio s1 ops in (s2, (o, x) :: tr)
  end.

(** * Announcing (publisher.rs:63-107 [run_announce]) *)

(** The announcement consumer (OriginSys.v) is represented by what its [next] will return: the queue
    of announcements and whether the origin is gone.  [an_closed]: the broadcasts that have closed;
    [an_tasks]: the futures waiting for a broadcast (86-89). *)
Record ann := Ann {
  an_queue : list (bytes * nat); an_gone : bool; an_closed : list nat;
  an_active : list bytes; an_tasks : list (bytes * nat); an_over : bool }.
Definition ann_new : ann := Ann [] false [] [] [] false.

(** HashSet insertion and removal. *)
Definition set_add (s : bytes) (l : list bytes) : list bytes := if existsb (str_eqb s) l then l else l ++ [s].
Definition set_del (s : bytes) (l : list bytes) : list bytes := filter (fun x => negb (str_eqb s x)) l.

Inductive nop :=
| NFeed (suffix : bytes) (b : nat)       (* an announcement becomes available *)
| NClose (b : nat)                       (* broadcast [b] closes *)
| NGone                                  (* the origin is gone *)
| NTurn (peer : await unit) (j : nat) (ks : list nat).
    (* one turn of the select: what [reader.finished()] gives, which completed task comes first, the
       iteration order of the set on the way out *)

Inductive nout := NUnit | NSent (ms : list announce) | NFinished (ms : list announce) | NStopped | NIdle | NBad.

Definition closed_task (s : ann) (t : bytes * nat) : bool := existsb (Nat.eqb (snd t)) (an_closed s).

Definition remove_nth {A} (j : nat) (l : list A) : list A := firstn j l ++ skipn (S j) l.

Definition nstep (s : ann) (o : nop) : ann * nout :=
  match o with
  | NFeed suffix b => (Ann (an_queue s ++ [(suffix, b)]) (an_gone s) (an_closed s) (an_active s) (an_tasks s) (an_over s), NUnit)
  | NClose b => (Ann (an_queue s) (an_gone s) (b :: an_closed s) (an_active s) (an_tasks s) (an_over s), NUnit)
  | NGone => (Ann (an_queue s) true (an_closed s) (an_active s) (an_tasks s) (an_over s), NUnit)
  | NTurn peer j ks =>
      if an_over s then (s, NBad) else
      match peer with
      | AOk _ | AErr _ => (Ann (an_queue s) (an_gone s) (an_closed s) [] [] true, NStopped)            (* 73 *)
      | APending | AFuel =>
        match an_queue s with
        | (suffix, b) :: q =>                                                                          (* 76-90 *)
            (Ann q (an_gone s) (an_closed s) (set_add suffix (an_active s)) (an_tasks s ++ [(suffix, b)]) false,
             NSent [Active suffix])
        | [] =>
          if an_gone s then                                                                            (* 91, 101-106 *)
            (Ann [] true (an_closed s) [] [] true, NFinished (map Ended (shuffle ks (an_active s))))
          else
            match nth_error (an_tasks s) j with
            | Some (suffix, b) =>
                if closed_task s (suffix, b) then                                                      (* 94-98 *)
                  (Ann [] false (an_closed s) (set_del suffix (an_active s)) (remove_nth j (an_tasks s)) false,
                   NSent [Ended suffix])
                else (s, if existsb (closed_task s) (an_tasks s) then NBad else NIdle)
            | None => (s, if existsb (closed_task s) (an_tasks s) then NBad else NIdle)
            end
        end
      end
  end.

Fixpoint nrun (s : ann) (ops : list nop) : ann * list (nop * nout) :=
  match ops with
  | [] => (s, [])
  | o :: ops => let (s1, x) := nstep s o in let (s2, tr) := nrun s1 ops in (s2, (o, x) :: tr)
  end.

(** * Answering a subscription (publisher.rs:109-155) *)

(** [Serving b m r]: broadcast [b] is asked for the track (142); the rest of the request stream is
    watched for its end.  [Unserved e]: the request ended with [e]; the stream is then dropped, which
    resets it with the code of [Cancel] whatever [e] is (109-129 returns Ok, writer.rs:65-70). *)
Inductive answer := Serving (b : nat) (m : subscribe) (r : reader) | Unserved (e : error) | NotAsked.

Definition recv_subscribe (w : N) (origin : osys) (p : nat) (r : reader) : answer :=
  match reader_decode (subscribe_decode w) r with                             (* 110 *)
  | (AOk m, r) =>
      match snd (ostep origin (OLookup p (sub_broadcast m))) with             (* 141 *)
      | OFound (Some b) => Serving b m r
      | OFound None => Unserved NotFound
      | _ => NotAsked
      end
  | (AErr e, _) => Unserved e
  | (APending, _) | (AFuel, _) => NotAsked
  end.
