(** A room: [Room] in rs/hang/src/model/room.rs.

    Simplified: the answers of the session are arbitrary: it announces broadcasts at any paths, among them perhaps
    our own, and the prefix consumer passes on those below the prefix (rs/moq/src/model/origin.rs L53-67, see
    OriginSys); a broadcast is a number.  Not modelled: the text in comments (L57-110). *)
From Coq Require Import NArith List Bool.
From Coq Require Import Init.Byte Strings.Byte.
From Verif.Model Require Import Base Map OriginSys.
Import ListNotations.

(** [rm_queue]: the announcements not yet taken from the prefix consumer; [rm_over]: the session ended;
    [rm_publishing]: the shared set of names (L12); [rm_tasks]: the tasks of L36-39, by name and broadcast;
    [rm_closed]: the broadcasts of ours that were closed. *)
Record room := Room { rm_path : bytes; rm_queue : list (bytes * nat); rm_over : bool;
                      rm_publishing : list bytes; rm_tasks : list (bytes * nat); rm_closed : list nat }.

Inductive rop :=
| RPublish (name : bytes) (b : nat)
| RClose (b : nat)                    (* our broadcast [b] is closed *)
| RTask (i : nat)                     (* the [i]-th cleanup task is polled *)
| RAnnounce (path : bytes) (b : nat)  (* the session announces a broadcast *)
| REnd                                (* the session ends *)
| RWatch.                             (* [watch] is called, or polled again *)
Inductive rout := RUnit | RAt (path : bytes) | RFound (name : bytes) (b : nat) | RNone | RPending.

(** L16-23 *)
Definition room_new (path : bytes) : room := Room path [] false [] [] [].

Definition inb (n : bytes) (l : list bytes) : bool := existsb (str_eqb n) l.
(** [HashSet::insert], [HashSet::remove] *)
Definition set_insert (n : bytes) (l : list bytes) : list bytes := if inb n l then l else n :: l.
Definition set_remove (n : bytes) (l : list bytes) : list bytes := filter (fun m => negb (str_eqb n m)) l.

(** The loop of [watch], L44-55: the first announcement that is not skipped, and the queue left. *)
Fixpoint watch_loop (publishing : list bytes) (q : list (bytes * nat)) : option (bytes * nat) * list (bytes * nat) :=
  match q with
  | [] => (None, [])
  | (suffix, b) :: q => if inb suffix publishing then watch_loop publishing q else (Some (suffix, b), q)
  end.

Fixpoint drop_nth {A} (n : nat) (l : list A) : list A :=
  match n, l with O, _ :: l => l | S n, x :: l => x :: drop_nth n l | _, [] => [] end.

Definition rstep (s : room) (o : rop) : room * rout :=
  match o with
  | RPublish n b =>                                                                   (* L26-40 *)
      (Room (rm_path s) (rm_queue s) (rm_over s) (set_insert n (rm_publishing s)) (rm_tasks s ++ [(n, b)]) (rm_closed s),
       RAt (rm_path s ++ n))
  | RClose b => (Room (rm_path s) (rm_queue s) (rm_over s) (rm_publishing s) (rm_tasks s) (b :: rm_closed s), RUnit)
  | RTask i =>                                                                        (* L36-39 *)
      match nth_error (rm_tasks s) i with
      | Some (n, b) =>
        if existsb (Nat.eqb b) (rm_closed s)
        then (Room (rm_path s) (rm_queue s) (rm_over s) (set_remove n (rm_publishing s)) (drop_nth i (rm_tasks s)) (rm_closed s), RUnit)
        else (s, RUnit)
      | None => (s, RUnit)
      end
  | RAnnounce p b =>
      if rm_over s then (s, RUnit) else
      match strip_prefix (rm_path s) p with
      | Some suffix => (Room (rm_path s) (rm_queue s ++ [(suffix, b)]) false (rm_publishing s) (rm_tasks s) (rm_closed s), RUnit)
      | None => (s, RUnit)
      end
  | REnd => (Room (rm_path s) (rm_queue s) true (rm_publishing s) (rm_tasks s) (rm_closed s), RUnit)
  | RWatch =>                                                                         (* L43-56 *)
      let (found, q) := watch_loop (rm_publishing s) (rm_queue s) in
      (Room (rm_path s) q (rm_over s) (rm_publishing s) (rm_tasks s) (rm_closed s),
       match found with Some (n, b) => RFound n b | None => if rm_over s then RNone else RPending end)
  end.

Fixpoint rrun (s : room) (ops : list rop) : room * list (rop * rout) :=
  match ops with
  | [] => (s, [])
  | o :: ops => let (s, x) := rstep s o in let (s, tr) := rrun s ops in (s, (o, x) :: tr)
  end.
