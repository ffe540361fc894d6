(** Location tracks, rs/hang/src/model/location.rs: positions published by any number of clones of one producer, and their
    readers.  The track is that of [TrackSys], its groups those of [GroupSys]; an execution is any interleaving of critical
    sections.  The fields [track] are public: [LRaw] stands for what else somebody may put into the track through them. *)
From Coq Require Import NArith List Bool.
From Coq Require Import Init.Byte Strings.Byte.
From Verif.Model Require Import Base ErrorCode Stream Frame FrameSys GroupSys TrackSys Media.
Import ListNotations.
Open Scope nat_scope.

(** location.rs:9-20; an [f32] is its 32 bits. *)
Record place := Place { pc_x : N; pc_y : N; pc_zoom : N }.

(** [BufMut::put_f32], [Buf::get_f32]: big-endian *)
Definition be32 (n : N) : bytes := [u8 (n / 2 ^ 24); u8 (n / 2 ^ 16); u8 (n / 2 ^ 8); u8 n]%N.
Definition of_be32 (b : bytes) : N := fold_left (fun a x => a * 256 + n_of x)%N b 0%N.
(** location.rs:85-88 *)
Definition place_encode (p : place) : bytes := be32 (pc_x p) ++ be32 (pc_y p) ++ be32 (pc_zoom p).
(** location.rs:51-59; [None]: [Error::InvalidFrame] *)
Definition place_decode (b : bytes) : option place :=
  if Nat.eqb (length b) 12
  then Some (Place (of_be32 (firstn 4 b)) (of_be32 (firstn 4 (skipn 4 b))) (of_be32 (skipn 8 b)))
  else None.

(** What is left of an [update] (location.rs:81-94): the two critical sections of [append_group], [write_frame] (create and
    append, write, finish; see [Media.stage]), the group's [finish], and storing [latest]. *)
Inductive lstage := LAppend1 | LAppend2 | LCreate | LWrite | LFrameEnd | LGroupEnd | LStore.

(** [jb_data]: the frame of the group, if any; [jb_pos]: the position to store; [jb_group]: the group once it is made. *)
Record job := Job { jb_data : option bytes; jb_pos : option place; jb_stage : lstage; jb_group : nat }.

(** location.rs:32-34 [LocationConsumer], with the group a pending [next] holds (which, and which consumer of it). *)
Record lreader := LReader { lr_track : nat; lr_group : option (nat * nat) }.

(** [lc_jobs]: the call each producer handle is in; handles are those of the track. *)
Record lsys := LSys {
  lc_track : tsys; lc_groups : list gsys; lc_jobs : list (option job); lc_latest : option place; lc_readers : list lreader }.

(** location.rs:70-75 [LocationProducer::new] on a new track *)
Definition lsys_new : lsys := LSys tsys_new [] [None] None [].

Inductive lop :=
| LUpdate (p : nat) (x : place)          (* call update *)
| LRaw (p : nat) (d : option bytes)      (* put a group into the public track: empty, or of one frame *)
| LStep (p : nat)                        (* the next critical section of that call *)
| LLatest (p : nat)
| LClone (p : nat)
| LDrop (p : nat)
| LFinish (p : nat)                      (* finish; the handle is gone *)
| LConsume (p : nat)                     (* a new reader *)
| LTrack (r : nat)                       (* poll the first await of [next] (41) *)
| LFrame (r : nat)                       (* poll its second await (46) *)
| LCancel (r : nat).                     (* drop the future of a [next] that is pending *)

(** [LAppended]: the group is in the track; [LStored]: the call returned.  [next] goes on at [LGroup], is pending at [LPend] and
    returns at [LGot], [LEnd], [LErr], [LEmptyGroup], [LInvalidFrame]. *)
Inductive lout :=
| LUnit | LPanic | LBad | LAppended | LStored | LPos (x : option place)
| LGroup | LPend | LGot (x : place) | LEnd | LErr (e : error) | LEmptyGroup | LInvalidFrame.

Definition lwith_track s x := LSys x (lc_groups s) (lc_jobs s) (lc_latest s) (lc_readers s).
Definition lwith_groups s x := LSys (lc_track s) x (lc_jobs s) (lc_latest s) (lc_readers s).
Definition lwith_jobs s x := LSys (lc_track s) (lc_groups s) x (lc_latest s) (lc_readers s).
Definition lwith_latest s x := LSys (lc_track s) (lc_groups s) (lc_jobs s) x (lc_readers s).
Definition lwith_readers s x := LSys (lc_track s) (lc_groups s) (lc_jobs s) (lc_latest s) x.

(** The handle exists and is not inside a call ([&mut self]). *)
Definition lfree (s : lsys) (p : nat) : bool :=
  idle (lc_track s) p && match nth_error (lc_jobs s) p with Some None => true | _ => false end.
Definition set_job (s : lsys) (p : nat) (j : option job) : lsys := lwith_jobs s (set_nth p j (lc_jobs s)).

(** Operations on the group of the call, then stage [next]. *)
Definition on_own (w : N) (s : lsys) (p : nat) (j : job) (ops : list gop) (next : lstage) : lsys * lout :=
  match nth_error (lc_groups s) (jb_group j) with
  | None => (set_job s p None, LPanic)
  | Some g =>
    let (g, ok) := gsteps w g ops in
    let s := lwith_groups s (set_nth (jb_group j) g (lc_groups s)) in
    if ok then (set_job s p (Some (Job (jb_data j) (jb_pos j) next (jb_group j))), LUnit) else (set_job s p None, LPanic)
  end.

(** location.rs:81-94 [update] *)
Definition lupdate (w : N) (m : mode) (s : lsys) (p : nat) (j : job) : lsys * lout :=
  let d := match jb_data j with Some d => d | None => [] end in
  match jb_stage j with
  | LAppend1 =>                                                                          (* 82 *)
      let (t, x) := tstep m (lc_track s) (TAppend1 p) in
      let s := lwith_track s t in
      match x with
      | TUnit => (set_job s p (Some (Job (jb_data j) (jb_pos j) LAppend2 0)), LUnit)
      | _ => (set_job s p None, LPanic)
      end
  | LAppend2 =>
      let n := length (lc_groups s) in
      let (t, x) := tstep m (lc_track s) (TAppend2 p n) in
      let s := lwith_track s t in
      match x with
      | TAppended _ =>
          (* the track keeps consumer 0 of the group *)
          (set_job (lwith_groups s (lc_groups s ++ [fst (gstep w gsys_new (GConsume 0))])) p
             (Some (Job (jb_data j) (jb_pos j) (match jb_data j with Some _ => LCreate | None => LGroupEnd end) n)), LAppended)
      | _ => (set_job s p None, LPanic)
      end
  | LCreate => on_own w s p j (create_frame 0 0 (len d)) LWrite                          (* 90 *)
  | LWrite => on_own w s p j [GFrame 0 (FWrite 0 d)] LFrameEnd
  | LFrameEnd => on_own w s p j [GFrame 0 (FFinish 0)] LGroupEnd
  | LGroupEnd => on_own w s p j [GFinish 0] LStore                                       (* 91 *)
  | LStore => (set_job (lwith_latest s (match jb_pos j with Some x => Some x | None => lc_latest s end)) p None, LStored)   (* 93 *)
  end.

(** A handle disappears. *)
Definition lhandle (m : mode) (s : lsys) (p : nat) (o : top) : lsys * lout :=
  if lfree s p then
    let (t, x) := tstep m (lc_track s) o in
    (lwith_track s t, match x with TUnit => LUnit | _ => LBad end)
  else (s, LBad).

Definition lstep (w : N) (m : mode) (s : lsys) (o : lop) : lsys * lout :=
  match o with
  | LUpdate p x => if lfree s p then (set_job s p (Some (Job (Some (place_encode x)) (Some x) LAppend1 0)), LUnit) else (s, LBad)
  | LRaw p d => if lfree s p then (set_job s p (Some (Job d None LAppend1 0)), LUnit) else (s, LBad)
  | LStep p =>
      match nth_error (lc_jobs s) p with
      | Some (Some j) => lupdate w m s p j
      | _ => (s, LBad)
      end
  | LLatest p => if lfree s p then (s, LPos (lc_latest s)) else (s, LBad)                (* 77-79 *)
  | LClone p =>
      if lfree s p then
        let (t, x) := tstep m (lc_track s) (TClone p) in
        (lwith_jobs (lwith_track s t) (lc_jobs s ++ [None]), match x with TUnit => LUnit | _ => LBad end)
      else (s, LBad)
  | LDrop p => lhandle m s p (TDrop p)
  | LFinish p => lhandle m s p (TFinish p)                                               (* 105-107 *)
  | LConsume p =>
      if lfree s p then
        let c := length (ts_cons (lc_track s)) in
        let (t, x) := tstep m (lc_track s) (TConsume p) in
        match x with
        | TUnit => (lwith_readers (lwith_track s t) (lc_readers s ++ [LReader c None]), LUnit)
        | _ => (lwith_track s t, LBad)
        end
      else (s, LBad)
  | LTrack r =>
      match nth_error (lc_readers s) r with
      | Some (LReader c None) =>
        let (t, x) := tstep m (lc_track s) (TNext c) in
        let s := lwith_track s t in
        match x with
        | TGot (AOk (Some gr)) =>
          match nth_error (lc_groups s) (g_id gr) with
          | None => (s, LBad)
          | Some g =>
            let (g', x) := gstep w g (GCClone 0) in
            (lwith_readers (lwith_groups s (set_nth (g_id gr) g' (lc_groups s)))
               (set_nth r (LReader c (Some (g_id gr, length (gs_cons g)))) (lc_readers s)), LGroup)      (* 42 *)
          end
        | TGot (AOk None) => (s, LEnd)                                                   (* 43 *)
        | TGot (AErr e) => (s, LErr e)                                                   (* 41 *)
        | TGot APending => (s, LPend)
        | TPanics => (s, LPanic)
        | _ => (s, LBad)
        end
      | _ => (s, LBad)
      end
  | LFrame r =>
      match nth_error (lc_readers s) r with
      | Some (LReader c (Some (j, gc))) =>
        match nth_error (lc_groups s) j with
        | None => (s, LBad)
        | Some g =>
          let (g, x) := gstep w g (GRead gc) in
          let s := lwith_groups s (set_nth j g (lc_groups s)) in
          let done := lwith_readers s (set_nth r (LReader c None) (lc_readers s)) in
          match x with
          | GGotAll (AOk (Some b)) =>
              (done, match place_decode b with Some x => LGot x | None => LInvalidFrame end)            (* 51-59 *)
          | GGotAll (AOk None) => (done, LEmptyGroup)                                    (* 48 *)
          | GGotAll (AErr e) => (done, LErr e)                                           (* 46 *)
          | GGotAll APending => (s, LPend)
          | GPanic => (s, LPanic)
          | _ => (s, LBad)
          end
        end
      | _ => (s, LBad)
      end
  | LCancel r =>
      match nth_error (lc_readers s) r with
      | Some (LReader c _) => (lwith_readers s (set_nth r (LReader c None) (lc_readers s)), LUnit)
      | None => (s, LBad)
      end
  end.

Fixpoint lrun (w : N) (m : mode) (s : lsys) (ops : list lop) : lsys * list (lop * lout) :=
  match ops with
  | [] => (s, [])
  | o :: ops => let (s1, x) := lstep w m s o in let (s2, tr) := lrun w m s1 ops in (s2, (o, x) :: tr)
  end.
