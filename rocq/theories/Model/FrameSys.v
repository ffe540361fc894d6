(** One frame shared by any number of producer and consumer handles (rs/moq/src/model/frame.rs).
    Every method is one critical section of the watch channel, so an execution is a list of
    operations in any order.  A future is modelled by its polls: abandoning it is not polling again. *)
From Coq Require Import NArith List Bool.
From Coq Require Import Init.Byte Strings.Byte.
From Verif.Model Require Import Base ErrorCode Stream Frame.
Import ListNotations.
Open Scope N_scope.

(** Replace element [n]. *)
Fixpoint set_nth {A} (n : nat) (x : A) (l : list A) : list A :=
  match l, n with
  | [], _ => []
  | _ :: l, O => x :: l
  | y :: l, S n => y :: set_nth n x l
  end.

(** A handle table: [None] once the handle is gone. *)
Definition table (A : Type) := list (option A).
Definition get {A} (t : table A) (h : nat) : option A :=
  match nth_error t h with Some (Some a) => Some a | _ => None end.
Definition live {A} (t : table A) : bool := existsb (fun x => match x with Some _ => true | None => false end) t.

(** [sy_prods]: the [written] counter of each producer (frame.rs:55-64); [sy_cons]: the [index] of
    each consumer (121-131); [sy_guards]: futures returned by [unused()], which hold a sender (105-110). *)
Record fsys := FSys {
  sy_size : N; sy_state : frame_state;
  sy_prods : table N; sy_cons : table nat; sy_guards : nat }.

(** frame.rs:67-73 [FrameProducer::new] *)
Definition fsys_new (size : N) : fsys := FSys size frame_new [Some 0] [] 0.

(** Is any sender of the watch channel left? *)
Definition fsys_alive (s : fsys) : bool := live (sy_prods s) || negb (Nat.eqb (sy_guards s) 0).

Inductive fop :=
| FWrite (p : nat) (c : bytes)        (* producer.write *)
| FFinish (p : nat)                   (* producer.finish, consumes the handle *)
| FAbort (p : nat) (e : error)        (* producer.abort, consumes the handle *)
| FDrop (p : nat)                     (* drop(producer) *)
| FClone (p : nat)                    (* producer.clone *)
| FUnused (p : nat)                   (* producer.unused *)
| FUnusedDrop                         (* drop of such a future *)
| FConsume (p : nat)                  (* producer.consume *)
| FRead (c : nat)                     (* poll consumer.read *)
| FReadAll (c : nat)                  (* poll consumer.read_all *)
| FCClone (c : nat)                   (* consumer.clone *)
| FCDrop (c : nat).                   (* drop(consumer) *)

(** [FBad]: the operation names a handle that does not exist (not expressible in Rust). *)
Inductive fout :=
| FUnit | FPanic | FBad | FGot (a : await (option bytes)) | FAll (a : await bytes).

Definition with_state (s : fsys) (st : frame_state) : fsys :=
  FSys (sy_size s) st (sy_prods s) (sy_cons s) (sy_guards s).
Definition with_prods (s : fsys) (t : table N) : fsys :=
  FSys (sy_size s) (sy_state s) t (sy_cons s) (sy_guards s).
Definition with_cons (s : fsys) (t : table nat) : fsys :=
  FSys (sy_size s) (sy_state s) (sy_prods s) t (sy_guards s).
Definition with_guards (s : fsys) (n : nat) : fsys :=
  FSys (sy_size s) (sy_state s) (sy_prods s) (sy_cons s) n.

(** [w]: word size.  A panicking [write] has already bumped its counter; a panicking [finish] has
    consumed its handle; neither changes the shared state (watch's [send_modify] leaves the value as
    it was when the assertion at its start fails). *)
Definition fstep (w : N) (s : fsys) (o : fop) : fsys * fout :=
  match o with
  | FWrite p c =>
      match get (sy_prods s) p with
      | None => (s, FBad)
      | Some written =>
          let (written, r) := frame_write w (sy_size s) written c (sy_state s) in
          let s := with_prods s (set_nth p (Some written) (sy_prods s)) in
          match r with Val st => (with_state s st, FUnit) | Panic => (s, FPanic) end
      end
  | FFinish p =>
      match get (sy_prods s) p with
      | None => (s, FBad)
      | Some written =>
          let r := frame_finish w (sy_size s) written (sy_state s) in
          let s := with_prods s (set_nth p None (sy_prods s)) in
          match r with Val st => (with_state s st, FUnit) | Panic => (s, FPanic) end
      end
  | FAbort p e =>
      match get (sy_prods s) p with
      | None => (s, FBad)
      | Some _ =>
          (with_state (with_prods s (set_nth p None (sy_prods s))) (frame_abort e (sy_state s)), FUnit)
      end
  | FDrop p =>
      match get (sy_prods s) p with
      | None => (s, FBad)
      | Some _ => (with_prods s (set_nth p None (sy_prods s)), FUnit)
      end
  | FClone p =>
      match get (sy_prods s) p with
      | None => (s, FBad)
      | Some written => (with_prods s (sy_prods s ++ [Some written]), FUnit)
      end
  | FUnused p =>
      match get (sy_prods s) p with
      | None => (s, FBad)
      | Some _ => (with_guards s (S (sy_guards s)), FUnit)
      end
  | FUnusedDrop =>
      match sy_guards s with O => (s, FBad) | S n => (with_guards s n, FUnit) end
  | FConsume p =>
      match get (sy_prods s) p with
      | None => (s, FBad)
      | Some _ => (with_cons s (sy_cons s ++ [Some 0%nat]), FUnit)
      end
  | FRead c =>
      match get (sy_cons s) c with
      | None => (s, FBad)
      | Some i =>
          let (a, i) := frame_read (fsys_alive s) i (sy_state s) in
          (with_cons s (set_nth c (Some i) (sy_cons s)), FGot a)
      end
  | FReadAll c =>
      match get (sy_cons s) c with
      | None => (s, FBad)
      | Some i =>
          match frame_read_all (fsys_alive s) i (sy_state s) with
          | Panic => (s, FPanic)
          | Val (a, i) => (with_cons s (set_nth c (Some i) (sy_cons s)), FAll a)
          end
      end
  | FCClone c =>
      match get (sy_cons s) c with
      | None => (s, FBad)
      | Some i => (with_cons s (sy_cons s ++ [Some i]), FUnit)
      end
  | FCDrop c =>
      match get (sy_cons s) c with
      | None => (s, FBad)
      | Some _ => (with_cons s (set_nth c None (sy_cons s)), FUnit)
      end
  end.

(** An execution: final state and the list of events, oldest first. *)
Fixpoint frun (w : N) (s : fsys) (ops : list fop) : fsys * list (fop * fout) :=
  match ops with
  | [] => (s, [])
  | o :: ops => let (s1, x) := fstep w s o in let (s2, tr) := frun w s1 ops in (s2, (o, x) :: tr)
  end.
