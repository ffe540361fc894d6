(** The catalog track: rs/hang/src/catalog/root.rs (producer and reader) and the cleanup tasks of
    rs/hang/src/model/broadcast.rs.  The track is that of [TrackSys], its groups those of [GroupSys];
    an execution is any interleaving of critical sections. *)
From Coq Require Import NArith List Bool.
From Coq Require Import Init.Byte Strings.Byte.
From Verif.Model Require Import Base ErrorCode Stream Frame FrameSys GroupSys TrackSys Media.
Import ListNotations.
Open Scope nat_scope.

Section Catalog.

(** [V], [A], [L]: the types Video, Audio, Location; [veq], [aeq]: their derived [==], which need not be
    reflexive (they contain f64 fields, catalog/video/mod.rs:71, 82).  [json], [parse]: serde_json on
    catalogs (root.rs:40, 54); not modelled further, so any functions.  That [to_string] never fails
    (root.rs:122) is part of this simplification. *)
Context {V A L : Type} (veq : V -> V -> bool) (aeq : A -> A -> bool).

(** root.rs:13-28 [Catalog] *)
Record catalog := Catalog { ct_video : list V; ct_audio : list A; ct_location : option L }.

Context (json : catalog -> bytes) (parse : bytes -> option catalog).

(** What a producer can do to the shared catalog under its lock (root.rs:86-114).  [Set_ c]: any change
    through the guard of [update]. *)
Inductive change := AddV (v : V) | AddA (a : A) | SetLoc (l : option L) | RemV (v : V) | RemA (a : A) | Set_ (c : catalog).

Definition apply (d : change) (c : catalog) : catalog :=
  match d with
  | AddV v => Catalog (ct_video c ++ [v]) (ct_audio c) (ct_location c)                        (* 88 *)
  | AddA a => Catalog (ct_video c) (ct_audio c ++ [a]) (ct_location c)                        (* 93 *)
  | SetLoc l => Catalog (ct_video c) (ct_audio c) l                                           (* 98 *)
  | RemV v => Catalog (filter (fun x => negb (veq x v)) (ct_video c)) (ct_audio c) (ct_location c)   (* 103 *)
  | RemA a => Catalog (ct_video c) (filter (fun x => negb (aeq x a)) (ct_audio c)) (ct_location c)   (* 108 *)
  | Set_ c => c                                                                               (* 113 *)
  end.

(** What is left of a [publish] (root.rs:117-125): the two critical sections of [append_group], then
    [write_frame] (create and append, write, finish; see [Media.stage]), then the group's [finish]. *)
Inductive pstage := PAppend1 | PAppend2 | PCreate | PWrite | PFrameEnd | PGroupEnd.

(** The mutex around the shared catalog.  [publish] holds it to its end; a panic under it poisons it. *)
Inductive lock := Free | Poisoned | Held (p : nat) (k : pstage).

(** root.rs:155-158 [CatalogConsumer]: its track consumer; its group (which, and which consumer of it). *)
Record creader := CReader { cr_track : nat; cr_group : option (nat * nat) }.

(** [cs_groups]: every group made by [publish].  The producers are those of the track. *)
Record csys := CSys {
  cs_track : tsys; cs_groups : list gsys; cs_cur : catalog; cs_lock : lock; cs_readers : list creader }.

(** root.rs:79-84 [CatalogProducer::new] on a new track *)
Definition csys_new (init : catalog) : csys := CSys tsys_new [] init Free [].

Inductive cop :=
| CChange (p : nat) (d : change)
| CPublish (p : nat)           (* publish: take the lock *)
| CStep                        (* the next critical section of the publish that holds the lock *)
| CClone (p : nat)
| CDrop (p : nat)
| CFinish (p : nat)
| CConsume (p : nat)           (* a new reader *)
| CTrack (r : nat)             (* poll the first branch of the select! in [next] (168-179) *)
| CFrame (r : nat)             (* poll its second branch (180-184) *)
| CRClone (r : nat).           (* clone a reader *)

(** [CBlock]: the lock is held by a publish, the caller waits.  [CNothing]: the branch is disabled.
    A call of [next] is any sequence of polls of its branches; it goes on at [CGroup], [CPend] and
    [CNothing] and returns at the others.  [CRead None]: the JSON error of line 182. *)
Inductive cout :=
| CUnit | CPanic | CBad | CBlock | CGroup | CNothing | CPend | CEnd | CErr (e : error) | CRead (c : option catalog).

Definition cwith_track s x := CSys x (cs_groups s) (cs_cur s) (cs_lock s) (cs_readers s).
Definition cwith_groups s x := CSys (cs_track s) x (cs_cur s) (cs_lock s) (cs_readers s).
Definition cwith_cur s x := CSys (cs_track s) (cs_groups s) x (cs_lock s) (cs_readers s).
Definition cwith_lock s x := CSys (cs_track s) (cs_groups s) (cs_cur s) x (cs_readers s).
Definition cwith_readers s x := CSys (cs_track s) (cs_groups s) (cs_cur s) (cs_lock s) x.

(** Handle [p] exists and is not inside a call ([&mut self]). *)
Definition free_handle (s : csys) (p : nat) : bool :=
  idle (cs_track s) p && match cs_lock s with Held q _ => negb (Nat.eqb p q) | _ => true end.

(** Operations on the newest group, then stage [next]. *)
Definition on_last (w : N) (s : csys) (ops : list gop) (next : lock) : csys * cout :=
  let j := pred (length (cs_groups s)) in
  match nth_error (cs_groups s) j with
  | None => (cwith_lock s Poisoned, CPanic)
  | Some g =>
    let (g, ok) := gsteps w g ops in
    let s := cwith_groups s (set_nth j g (cs_groups s)) in
    if ok then (cwith_lock s next, CUnit) else (cwith_lock s Poisoned, CPanic)
  end.

(** root.rs:117-125 [publish].  The group has one frame, number 0. *)
Definition cpublish (w : N) (m : mode) (s : csys) (p : nat) (k : pstage) : csys * cout :=
  let d := json (cs_cur s) in
  match k with
  | PAppend1 =>                                                                          (* 119 *)
      let (t, x) := tstep m (cs_track s) (TAppend1 p) in
      match x with
      | TUnit => (cwith_lock (cwith_track s t) (Held p PAppend2), CUnit)
      | _ => (cwith_lock (cwith_track s t) Poisoned, CPanic)
      end
  | PAppend2 =>
      let (t, x) := tstep m (cs_track s) (TAppend2 p (length (cs_groups s))) in
      match x with
      | TAppended _ =>
          (cwith_lock (cwith_groups (cwith_track s t) (cs_groups s ++ [fst (gstep w gsys_new (GConsume 0))]))
             (Held p PCreate), CUnit)
      | _ => (cwith_lock (cwith_track s t) Poisoned, CPanic)
      end
  | PCreate => on_last w s (create_frame 0 0 (len d)) (Held p PWrite)                    (* 122-123 *)
  | PWrite => on_last w s [GFrame 0 (FWrite 0 d)] (Held p PFrameEnd)
  | PFrameEnd => on_last w s [GFrame 0 (FFinish 0)] (Held p PGroupEnd)
  | PGroupEnd => on_last w s [GFinish 0] Free                                            (* 124 *)
  end.

Definition cstep (w : N) (m : mode) (s : csys) (o : cop) : csys * cout :=
  match o with
  | CChange p d =>
      if free_handle s p then
        match cs_lock s with
        | Free => (cwith_cur s (apply d (cs_cur s)), CUnit)
        | Poisoned => (s, CPanic)                                        (* lock().unwrap() *)
        | Held _ _ => (s, CBlock)
        end
      else (s, CBad)
  | CPublish p =>
      if free_handle s p then
        match cs_lock s with
        | Free => (cwith_lock s (Held p PAppend1), CUnit)
        | Poisoned => (s, CPanic)                                        (* 118 *)
        | Held _ _ => (s, CBlock)
        end
      else (s, CBad)
  | CStep =>
      match cs_lock s with
      | Held p k => cpublish w m s p k
      | _ => (s, CBad)
      end
  | CClone p =>
      if free_handle s p then
        let (t, x) := tstep m (cs_track s) (TClone p) in
        (cwith_track s t, match x with TUnit => CUnit | _ => CBad end)
      else (s, CBad)
  | CDrop p =>
      if free_handle s p then
        let (t, x) := tstep m (cs_track s) (TDrop p) in
        (cwith_track s t, match x with TUnit => CUnit | _ => CBad end)
      else (s, CBad)
  | CFinish p =>                                                         (* 131-133 *)
      if free_handle s p then
        let (t, x) := tstep m (cs_track s) (TFinish p) in
        (cwith_track s t, match x with TUnit => CUnit | _ => CBad end)
      else (s, CBad)
  | CConsume p =>                                                        (* 127-129, 161-163 *)
      if free_handle s p then
        let c := length (ts_cons (cs_track s)) in
        let (t, x) := tstep m (cs_track s) (TConsume p) in
        match x with
        | TUnit => (cwith_readers (cwith_track s t) (cs_readers s ++ [CReader c None]), CUnit)
        | _ => (cwith_track s t, CBad)
        end
      else (s, CBad)
  | CTrack r =>
      match nth_error (cs_readers s) r with
      | None => (s, CBad)
      | Some rd =>
        let (t, x) := tstep m (cs_track s) (TNext (cr_track rd)) in
        let s := cwith_track s t in
        match x with
        | TGot (AOk (Some gr)) =>
          match nth_error (cs_groups s) (g_id gr) with
          | None => (s, CBad)
          | Some g =>
            let (g', x) := gstep w g (GCClone 0) in
            (cwith_readers (cwith_groups s (set_nth (g_id gr) g' (cs_groups s)))
               (set_nth r (CReader (cr_track rd) (Some (g_id gr, length (gs_cons g)))) (cs_readers s)), CGroup)   (* 172 *)
          end
        | TGot (AOk None) => (s, CEnd)                                   (* 176 *)
        | TGot (AErr e) => (s, CErr e)                                   (* 169 *)
        | TGot APending => (s, CPend)
        | TPanics => (s, CPanic)
        | _ => (s, CBad)
        end
      end
  | CFrame r =>
      match nth_error (cs_readers s) r with
      | None => (s, CBad)
      | Some rd =>
        match cr_group rd with
        | None => (s, CNothing)
        | Some (j, c) =>
          match nth_error (cs_groups s) j with
          | None => (s, CBad)
          | Some g =>
            let (g, x) := gstep w g (GRead c) in
            let s := cwith_groups s (set_nth j g (cs_groups s)) in
            let taken := cwith_readers s (set_nth r (CReader (cr_track rd) None) (cs_readers s)) in   (* 181 *)
            match x with
            | GGotAll (AOk (Some b)) => (taken, CRead (parse b))         (* 182-183 *)
            | GGotAll (AOk None) => (s, CNothing)
            | GGotAll (AErr e) => (taken, CErr e)
            | GGotAll APending => (s, CPend)
            | GPanic => (s, CPanic)
            | _ => (s, CBad)
            end
          end
        end
      end
  | CRClone r =>
      match nth_error (cs_readers s) r with
      | None => (s, CBad)
      | Some rd =>
        let c := length (ts_cons (cs_track s)) in
        let (t, x) := tstep m (cs_track s) (TCClone (cr_track rd)) in
        let s := cwith_track s t in
        match cr_group rd with
        | None => (cwith_readers s (cs_readers s ++ [CReader c None]), CUnit)
        | Some (j, gc) =>
          match nth_error (cs_groups s) j with
          | None => (s, CBad)
          | Some g =>
            let (g', x) := gstep w g (GCClone gc) in
            (cwith_readers (cwith_groups s (set_nth j g' (cs_groups s)))
               (cs_readers s ++ [CReader c (Some (j, length (gs_cons g)))]), CUnit)
          end
        end
      end
  end.

Fixpoint crun (w : N) (m : mode) (s : csys) (ops : list cop) : csys * list (cop * cout) :=
  match ops with
  | [] => (s, [])
  | o :: ops => let (s1, x) := cstep w m s o in let (s2, tr) := crun w m s1 ops in (s2, (o, x) :: tr)
  end.

(** * The broadcast with its cleanup tasks (rs/hang/src/model/broadcast.rs) *)

(** A rendition is a video or an audio description; media tracks are numbered. *)
Inductive rendition := RV (v : V) | RA (a : A).
Definition add_of (r : rendition) : change := match r with RV v => AddV v | RA a => AddA a end.
Definition rem_of (r : rendition) : change := match r with RV v => RemV v | RA a => RemA a end.

(** What a thread has left to do: one critical section each ([Publishing]: the rest of a publish). *)
Inductive act := DoChange (d : change) | DoPublish | Publishing | Spawn (r : rendition) (k : nat) | Wait (k : nat) | DropIt.

(** broadcast.rs:36-47 [add_video], 50-61 [add_audio].  Inserting the track into the broadcast (37, 51)
    does not touch the catalog and is left out. *)
Definition add_call (r : rendition) (k : nat) : list act := [DoChange (add_of r); DoPublish; Spawn r k].
(** broadcast.rs:42-46, 56-60: the task; at its end its clone of the producer is dropped. *)
Definition cleanup (r : rendition) (k : nat) : list act := [Wait k; DoChange (rem_of r); DoPublish; DropIt].

(** A thread owns one clone of the producer: a user's, or a task's. *)
Record thread := Thread { th_handle : nat; th_todo : list act }.

(** [bs_ended]: for each media track whether it has ended (track.closed() is ready). *)
Record bcsys := BCSys { bs_cat : csys; bs_threads : list thread; bs_ended : list bool }.

(** broadcast.rs:20-26 [BroadcastProducer::new]: an empty catalog, not yet published. *)
Definition bcsys_new : bcsys := BCSys (csys_new (Catalog [] [] None)) [Thread 0 []] [].

Inductive bcop :=
| BTrack                               (* someone makes a media track *)
| BEnd (k : nat)                       (* media track [k] ends (finish, abort or drop) *)
| BAdd (i : nat) (r : rendition) (k : nat)   (* thread [i] calls add_video or add_audio (create_* are BTrack, BAdd) *)
| BGo (i : nat)                        (* thread [i] runs its next critical section *)
| BClone (i : nat)
| BDrop (i : nat)
| BConsume (i : nat)
| BRead (o : cop).                     (* a reader's operation *)

(** [BWait]: nothing happens, the thread has to wait. *)
Inductive bcout := BUnit | BPanic | BBad | BWait | BOut (x : cout).

Definition set_todo (s : bcsys) (c : csys) (i : nat) (h : nat) (todo : list act) : bcsys :=
  BCSys c (set_nth i (Thread h todo) (bs_threads s)) (bs_ended s).

Definition bcstep (w : N) (m : mode) (s : bcsys) (o : bcop) : bcsys * bcout :=
  match o with
  | BTrack => (BCSys (bs_cat s) (bs_threads s) (bs_ended s ++ [false]), BUnit)
  | BEnd k =>
      match nth_error (bs_ended s) k with
      | Some _ => (BCSys (bs_cat s) (bs_threads s) (set_nth k true (bs_ended s)), BUnit)
      | None => (s, BBad)
      end
  | BAdd i r k =>
      match nth_error (bs_threads s) i, nth_error (bs_ended s) k with
      | Some (Thread h []), Some _ =>
          if free_handle (bs_cat s) h then (set_todo s (bs_cat s) i h (add_call r k), BUnit) else (s, BBad)
      | _, _ => (s, BBad)
      end
  | BGo i =>
      match nth_error (bs_threads s) i with
      | Some (Thread h (a :: todo)) =>
        match a with
        | DoChange d =>
            let (c, x) := cstep w m (bs_cat s) (CChange h d) in
            match x with
            | CUnit => (set_todo s c i h todo, BUnit)
            | CBlock => (s, BWait)
            | _ => (set_todo s c i h [], BPanic)
            end
        | DoPublish =>
            let (c, x) := cstep w m (bs_cat s) (CPublish h) in
            match x with
            | CUnit => (set_todo s c i h (Publishing :: todo), BUnit)
            | CBlock => (s, BWait)
            | _ => (set_todo s c i h [], BPanic)
            end
        | Publishing =>
            let (c, x) := cstep w m (bs_cat s) CStep in
            match x with
            | CUnit => (set_todo s c i h (match cs_lock c with Free => todo | _ => Publishing :: todo end), BUnit)
            | _ => (set_todo s c i h [], BPanic)
            end
        | Spawn r k =>
            let n := length (ts_prods (cs_track (bs_cat s))) in
            let (c, x) := cstep w m (bs_cat s) (CClone h) in
            match x with
            | CUnit => (BCSys c (set_nth i (Thread h todo) (bs_threads s) ++ [Thread n (cleanup r k)]) (bs_ended s), BUnit)
            | _ => (set_todo s c i h [], BPanic)
            end
        | Wait k =>
            match nth_error (bs_ended s) k with
            | Some true => (set_todo s (bs_cat s) i h todo, BUnit)
            | _ => (s, BWait)
            end
        | DropIt =>
            let (c, x) := cstep w m (bs_cat s) (CDrop h) in
            match x with
            | CUnit => (set_todo s c i h todo, BUnit)
            | _ => (set_todo s c i h [], BPanic)
            end
        end
      | _ => (s, BBad)
      end
  | BClone i =>
      match nth_error (bs_threads s) i with
      | Some (Thread h []) =>
          let n := length (ts_prods (cs_track (bs_cat s))) in
          let (c, x) := cstep w m (bs_cat s) (CClone h) in
          match x with
          | CUnit => (BCSys c (bs_threads s ++ [Thread n []]) (bs_ended s), BUnit)
          | _ => (s, BBad)
          end
      | _ => (s, BBad)
      end
  | BDrop i =>
      match nth_error (bs_threads s) i with
      | Some (Thread h []) =>
          let (c, x) := cstep w m (bs_cat s) (CDrop h) in
          match x with
          | CUnit => (set_todo s c i h [], BUnit)
          | _ => (s, BBad)
          end
      | _ => (s, BBad)
      end
  | BConsume i =>                                                        (* 28-33 *)
      match nth_error (bs_threads s) i with
      | Some (Thread h []) =>
          let (c, x) := cstep w m (bs_cat s) (CConsume h) in
          (BCSys c (bs_threads s) (bs_ended s), BOut x)
      | _ => (s, BBad)
      end
  | BRead o =>
      match o with
      | CTrack _ | CFrame _ | CRClone _ =>
          let (c, x) := cstep w m (bs_cat s) o in (BCSys c (bs_threads s) (bs_ended s), BOut x)
      | _ => (s, BBad)
      end
  end.

Fixpoint bcrun (w : N) (m : mode) (s : bcsys) (ops : list bcop) : bcsys * list (bcop * bcout) :=
  match ops with
  | [] => (s, [])
  | o :: ops => let (s1, x) := bcstep w m s o in let (s2, tr) := bcrun w m s1 ops in (s2, (o, x) :: tr)
  end.

End Catalog.

Arguments catalog : clear implicits.
Arguments change : clear implicits.
Arguments csys : clear implicits.
Arguments cop : clear implicits.
Arguments cout : clear implicits.
Arguments rendition : clear implicits.
Arguments bcsys : clear implicits.
Arguments bcop : clear implicits.
Arguments bcout : clear implicits.
Arguments act : clear implicits.
Arguments thread : clear implicits.
