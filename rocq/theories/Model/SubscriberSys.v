(** The subscribing half of a session (rs/moq/src/session/subscriber.rs:108-185, 210-223): broadcasts
    consumed by path, subscriptions and their ids, and where an incoming group goes. *)
From Coq Require Import NArith List Bool.
From Coq Require Import Init.Byte Strings.Byte.
From Verif.Model Require Import Base ErrorCode Stream Frame FrameSys TrackSys Map.
Import ListNotations.
Open Scope N_scope.

(** HashMap<u64, _> *)
Fixpoint nlookup {V} (k : N) (m : list (N * V)) : option V :=
  match m with [] => None | (k', v) :: m => if N.eqb k k' then Some v else nlookup k m end.
Fixpoint nremove {V} (k : N) (m : list (N * V)) : list (N * V) :=
  match m with [] => [] | (k', v) :: m => if N.eqb k k' then nremove k m else (k', v) :: nremove k m end.
Definition nput {V} (k : N) (v : V) (m : list (N * V)) : list (N * V) := (k, v) :: nremove k m.

(** Progress of the task spawned at 144-147. *)
Inductive sphase := Spawned | Registered | Over | Gone.

(** A subscription: its id, the path of its broadcast, and its track's state (track.rs:43-47). *)
Record subn := Subn { sb_id : N; sb_path : bytes; sb_phase : sphase; sb_latest : option group; sb_closed : option outcome }.

(** subscriber.rs:17-23 [Subscriber].  [ss_bcasts]: the broadcasts made by [consume], by the path of
    their task, and whether it runs. *)
Record ssys := SSys {
  ss_next : N; ss_subs : list subn; ss_map : list (N * nat);
  ss_bmap : map_of nat; ss_bcasts : list (bytes * bool) }.
(** subscriber.rs:26-34 [new] *)
Definition ssys_new : ssys := SSys 0 [] [] [] [].

Inductive sop :=
| SConsume (path : bytes)             (* consume *)
| SRequest (b : nat)                  (* run_broadcast takes a request (133) and allocates an id (140) *)
| SQuit (b : nat)                     (* run_broadcast leaves its loop (132, 135, 137) and returns (151) *)
| SStart (k : nat)                    (* run_subscribe of subscription [k] begins (155) *)
| SEnd (k : nat) (o : outcome)        (* it ends the track (171-184) *)
| SRemove (k : nat)                   (* it returned: the entry is removed (146) *)
| SGroup (id seq : N) (g : nat).      (* recv_group up to the insertion (211-222); [g] names the group *)

Inductive sout :=
| SBad | SUnit | SBroadcast (b : nat) | SId (k : nat) (id : N) | SSubscribe (id : N) (path : bytes)
| SInserted (k : nat) | SRefused (e : error) | SPanic.

Definition swith_subs s x := SSys (ss_next s) x (ss_map s) (ss_bmap s) (ss_bcasts s).
Definition swith_map s x := SSys (ss_next s) (ss_subs s) x (ss_bmap s) (ss_bcasts s).

Definition sstep (s : ssys) (o : sop) : ssys * sout :=
  match o with
  | SConsume path =>                                                          (* 111-124 *)
      match lookup path (ss_bmap s) with
      | Some b => (s, SBroadcast b)
      | None =>
          (SSys (ss_next s) (ss_subs s) (ss_map s) (ss_bmap s) (ss_bcasts s ++ [(path, true)]),
           SBroadcast (length (ss_bcasts s)))
      end
  | SRequest b =>
      match nth_error (ss_bcasts s) b with
      | Some (path, true) =>
          let id := ss_next s in
          (SSys ((id + 1) mod 2 ^ 64) (ss_subs s ++ [Subn id path Spawned None None]) (ss_map s) (ss_bmap s) (ss_bcasts s),
           SId (length (ss_subs s)) id)
      | _ => (s, SBad)
      end
  | SQuit b =>
      match nth_error (ss_bcasts s) b with
      | Some (path, true) =>
          (SSys (ss_next s) (ss_subs s) (ss_map s) (remove path (ss_bmap s)) (set_nth b (path, false) (ss_bcasts s)), SUnit)
      | _ => (s, SBad)
      end
  | SStart k =>
      match nth_error (ss_subs s) k with
      | Some (Subn id path Spawned l c) =>
          (swith_map (swith_subs s (set_nth k (Subn id path Registered l c) (ss_subs s))) (nput id k (ss_map s)),
           SSubscribe id path)
      | _ => (s, SBad)
      end
  | SEnd k o =>
      match nth_error (ss_subs s) k with
      | Some (Subn id path Registered l _) => (swith_subs s (set_nth k (Subn id path Over l (Some o)) (ss_subs s)), SUnit)
      | _ => (s, SBad)
      end
  | SRemove k =>
      match nth_error (ss_subs s) k with
      | Some (Subn id path Over l c) =>
          (swith_map (swith_subs s (set_nth k (Subn id path Gone l c) (ss_subs s))) (nremove id (ss_map s)), SUnit)
      | _ => (s, SBad)
      end
  | SGroup id seq g =>
      match nlookup id (ss_map s) with
      | None => (s, SRefused Cancel)                                          (* 217 *)
      | Some k =>
          match nth_error (ss_subs s) k with
          | None => (s, SBad)
          | Some (Subn i path ph l c) =>
              match track_insert (Group seq g) l c with                       (* 222; track.rs:65-80 *)
              | Panic => (s, SPanic)
              | Val (false, _) => (s, SRefused Old)
              | Val (true, l) => (swith_subs s (set_nth k (Subn i path ph l c) (ss_subs s)), SInserted k)
              end
          end
      end
  end.

Fixpoint srun (s : ssys) (ops : list sop) : ssys * list (sop * sout) :=
  match ops with
  | [] => (s, [])
  | o :: ops => let (s1, x) := sstep s o in let (s2, tr) := srun s1 ops in (s2, (o, x) :: tr)
  end.
