(** One group, the frames appended to it and all handles on both (rs/moq/src/model/group.rs).
    A [FrameConsumer] held by the group is a value: which frame, and its position in it. *)
From Coq Require Import NArith List Bool.
From Coq Require Import Init.Byte Strings.Byte.
From Verif.Model Require Import Base ErrorCode Stream Frame FrameSys.
Import ListNotations.
Open Scope N_scope.

(** A frame consumer by value: frame number, [index]. *)
Definition entry : Type := nat * nat.

(** group.rs:150-165 [GroupConsumer] *)
Record gcons := GC { gc_index : nat; gc_active : option entry }.

(** group.rs:61-68 [GroupState]; [gs_heap]: every frame created, each with its handles;
    [gs_prods], [gs_cons], [gs_guards]: producers, consumers and [unused()] futures of the group. *)
Record gsys := GSys {
  gs_heap : list fsys; gs_frames : list entry; gs_closed : option outcome;
  gs_prods : table unit; gs_guards : nat; gs_cons : table gcons }.

(** group.rs:81-86 [GroupProducer::new] *)
Definition gsys_new : gsys := GSys [] [] None [Some tt] 0 [].
Definition gsys_alive (s : gsys) : bool := live (gs_prods s) || negb (Nat.eqb (gs_guards s) 0).

(** group.rs:188-214 [next_frame], one poll. *)
Definition group_next (alive : bool) (frames : list entry) (closed : option outcome) (g : gcons)
  : await (option entry) * gcons :=
  match gc_active g with
  | Some a => (AOk (Some a), GC (gc_index g) None)                           (* 190-192 *)
  | None =>
    match nth_error frames (gc_index g) with
    | Some a => (AOk (Some a), GC (S (gc_index g)) None)                     (* 198-201 *)
    | None =>
      (match closed with
       | Some Finished => AOk None                                           (* 204 *)
       | Some (Failed e) => AErr e                                           (* 205 *)
       | None => if alive then APending else AErr Cancel                     (* 210-212 *)
       end, g)
    end
  end.

(** group.rs:169-185 [read_frame], one poll.  Restarting it after it was abandoned and resuming it
    are the same thing: all its progress is in [active].  [None]: dangling entry (never happens). *)
Definition group_read (alive : bool) (heap : list fsys) (frames : list entry) (closed : option outcome) (g : gcons)
  : res (await (option bytes) * gcons) :=
  let (a, g) := match gc_active g with
                | Some f => (AOk (Some f), g)
                | None => group_next alive frames closed g                   (* 172-174 *)
                end in
  match a with
  | AErr e => Val (AErr e, g)
  | APending => Val (APending, g)
  | AFuel => Val (AFuel, g)
  | AOk None => Val (AOk None, GC (gc_index g) None)                         (* 179 *)
  | AOk (Some (f, i)) =>
    match nth_error heap f with
    | None => Panic
    | Some fs =>
      match frame_read_all (fsys_alive fs) i (sy_state fs) with              (* 178 *)
      | Panic => Panic
      | Val (AOk b, _) => Val (AOk (Some b), GC (gc_index g) None)           (* 182-184 *)
      | Val (AErr e, i) => Val (AErr e, GC (gc_index g) (Some (f, i)))
      | Val (APending, i) => Val (APending, GC (gc_index g) (Some (f, i)))
      | Val (AFuel, i) => Val (AFuel, GC (gc_index g) (Some (f, i)))
      end
    end
  end.

Inductive gop :=
| GNewFrame (size : N)                 (* FrameProducer::new; its first producer is handle 0 *)
| GFrame (f : nat) (o : fop)           (* any operation on a frame handle *)
| GAppend (p f c : nat)                (* append_frame, taking consumer [c] of frame [f] *)
| GFinish (p : nat)
| GAbort (p : nat) (e : error)
| GDrop (p : nat)
| GClone (p : nat)
| GUnused (p : nat)
| GUnusedDrop
| GConsume (p : nat)
| GNext (c : nat)                      (* poll next_frame *)
| GRead (c : nat)                      (* poll read_frame *)
| GCClone (c : nat)
| GCDrop (c : nat).

(** [GAppended i]: accepted, the consumer was at position [i].  [GGot]: the frame consumer handed
    out (it becomes the newest consumer handle of that frame). *)
Inductive gout :=
| GUnit | GPanic | GBad | GFrameOut (x : fout) | GAppended (i : nat)
| GGot (a : await (option entry)) | GGotAll (a : await (option bytes)).

Definition gwith_heap s x := GSys x (gs_frames s) (gs_closed s) (gs_prods s) (gs_guards s) (gs_cons s).
Definition gwith_frames s x := GSys (gs_heap s) x (gs_closed s) (gs_prods s) (gs_guards s) (gs_cons s).
Definition gwith_closed s x := GSys (gs_heap s) (gs_frames s) x (gs_prods s) (gs_guards s) (gs_cons s).
Definition gwith_prods s x := GSys (gs_heap s) (gs_frames s) (gs_closed s) x (gs_guards s) (gs_cons s).
Definition gwith_guards s x := GSys (gs_heap s) (gs_frames s) (gs_closed s) (gs_prods s) x (gs_cons s).
Definition gwith_cons s x := GSys (gs_heap s) (gs_frames s) (gs_closed s) (gs_prods s) (gs_guards s) x.

(** A consumer at position [i] becomes a handle of frame [f]. *)
Definition hand_out (heap : list fsys) (a : option entry) : list fsys :=
  match a with
  | None => heap
  | Some (f, i) =>
    match nth_error heap f with
    | None => heap
    | Some fs => set_nth f (with_cons fs (sy_cons fs ++ [Some i])) heap
    end
  end.

Definition gstep (w : N) (s : gsys) (o : gop) : gsys * gout :=
  match o with
  | GNewFrame size => (gwith_heap s (gs_heap s ++ [fsys_new size]), GUnit)
  | GFrame f o =>
      match nth_error (gs_heap s) f with
      | None => (s, GBad)
      | Some fs => let (fs, x) := fstep w fs o in (gwith_heap s (set_nth f fs (gs_heap s)), GFrameOut x)
      end
  | GAppend p f c =>
      match get (gs_prods s) p, nth_error (gs_heap s) f with
      | Some _, Some fs =>
        match get (sy_cons fs) c with
        | Some i =>
            let s := gwith_heap s (set_nth f (with_cons fs (set_nth c None (sy_cons fs))) (gs_heap s)) in
            match gs_closed s with
            | None => (gwith_frames s (gs_frames s ++ [(f, i)]), GAppended i)   (* group.rs:111-114 *)
            | Some _ => (s, GPanic)                                             (* 112 *)
            end
        | None => (s, GBad)
        end
      | _, _ => (s, GBad)
      end
  | GFinish p =>
      match get (gs_prods s) p with
      | None => (s, GBad)
      | Some _ => (gwith_closed (gwith_prods s (set_nth p None (gs_prods s))) (Some Finished), GUnit)   (* 118-120 *)
      end
  | GAbort p e =>
      match get (gs_prods s) p with
      | None => (s, GBad)
      | Some _ => (gwith_closed (gwith_prods s (set_nth p None (gs_prods s))) (Some (Failed e)), GUnit) (* 122-124 *)
      end
  | GDrop p =>
      match get (gs_prods s) p with
      | None => (s, GBad)
      | Some _ => (gwith_prods s (set_nth p None (gs_prods s)), GUnit)
      end
  | GClone p =>
      match get (gs_prods s) p with
      | None => (s, GBad)
      | Some _ => (gwith_prods s (gs_prods s ++ [Some tt]), GUnit)
      end
  | GUnused p =>
      match get (gs_prods s) p with
      | None => (s, GBad)
      | Some _ => (gwith_guards s (S (gs_guards s)), GUnit)                      (* 136-141 *)
      end
  | GUnusedDrop =>
      match gs_guards s with O => (s, GBad) | S n => (gwith_guards s n, GUnit) end
  | GConsume p =>
      match get (gs_prods s) p with
      | None => (s, GBad)
      | Some _ => (gwith_cons s (gs_cons s ++ [Some (GC 0 None)]), GUnit)        (* 127-134 *)
      end
  | GNext c =>
      match get (gs_cons s) c with
      | None => (s, GBad)
      | Some g =>
          let (a, g) := group_next (gsys_alive s) (gs_frames s) (gs_closed s) g in
          let s := gwith_cons s (set_nth c (Some g) (gs_cons s)) in
          (match a with AOk x => gwith_heap s (hand_out (gs_heap s) x) | _ => s end, GGot a)
      end
  | GRead c =>
      match get (gs_cons s) c with
      | None => (s, GBad)
      | Some g =>
          match group_read (gsys_alive s) (gs_heap s) (gs_frames s) (gs_closed s) g with
          | Panic => (s, GPanic)
          | Val (a, g) => (gwith_cons s (set_nth c (Some g) (gs_cons s)), GGotAll a)
          end
      end
  | GCClone c =>
      match get (gs_cons s) c with
      | None => (s, GBad)
      | Some g => (gwith_cons s (gs_cons s ++ [Some g]), GUnit)
      end
  | GCDrop c =>
      match get (gs_cons s) c with
      | None => (s, GBad)
      | Some g => (gwith_cons s (set_nth c None (gs_cons s)), GUnit)
      end
  end.

Fixpoint grun (w : N) (s : gsys) (ops : list gop) : gsys * list (gop * gout) :=
  match ops with
  | [] => (s, [])
  | o :: ops => let (s1, x) := gstep w s o in let (s2, tr) := grun w s1 ops in (s2, (o, x) :: tr)
  end.

(** group.rs:103-107 [create_frame] as frame [f] (the next free number), and 92-100 [write_frame]:
    sequences of the operations above, which others may interleave with. *)
Definition create_frame (p f : nat) (size : N) : list gop := [GNewFrame size; GFrame f (FConsume 0); GAppend p f 0].
Definition write_frame (p f : nat) (data : bytes) : list gop :=
  create_frame p f (len data) ++ [GFrame f (FWrite 0 data); GFrame f (FFinish 0)].
