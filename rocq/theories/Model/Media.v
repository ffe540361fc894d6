(** Media tracks: the writer of rs/hang/src/model/track.rs over one moq track, and any number of
    readers of its groups (rs/hang/src/model/group.rs).  The groups are those of [GroupSys], the
    track is that of [TrackSys]; an execution is any interleaving of the critical sections.
    The reader that switches between groups (track.rs:56-157) is in [MediaRead]. *)
From Coq Require Import NArith List Bool.
From Coq Require Import Init.Byte Strings.Byte.
From Verif.Model Require Import Base Coding ErrorCode Stream Frame FrameSys GroupSys TrackSys.
Import ListNotations.
Open Scope N_scope.

(** rs/hang/src/model/frame.rs:3-12 [Frame].  A [Duration] is its nanoseconds. *)
Record mframe := MFrame { mf_ts : N; mf_key : bool; mf_data : bytes }.

(** track.rs:21-23: [timestamp.as_micros() as u64], encoded as a varint (which panics from 2^62). *)
Definition media_header (ts : N) : res bytes :=
  match u64_encode ((ts / 1000) mod 2 ^ 64) with
  | Val ps => Val (wire ps)
  | Panic => Panic
  end.
Definition header_of (f : mframe) : bytes :=
  match media_header (mf_ts f) with Val h => h | Panic => [] end.
(** track.rs:36 [size]; a sum of two lengths in memory. *)
Definition media_size (f : mframe) : N := len (header_of f) + len (mf_data f).

(** What is left of a [write] (track.rs:25-42).  Creating a frame and appending it is one step: the
    frame is nobody else's before it is in the group. *)
Inductive stage := SFinish | SAppend1 | SAppend2 | SCreate | SHeader | SPayload | SEnd.

(** A reader: which group, which of its consumers, and its [index] (group.rs:8-19).  [buffered] stays
    empty: only [buffer_frames_until] fills it, and that is private to the track reader. *)
Record mreader := MReader { mr_group : nat; mr_cons : nat; mr_index : nat }.

(** [ms_groups]: every group the writer made; [ms_cur]: its [group] field; [ms_job]: the write in
    progress; [ms_readers]: readers, in the order they were made. *)
Record msys := MSys {
  ms_track : tsys; ms_groups : list gsys; ms_cur : option nat;
  ms_job : option (stage * mframe); ms_readers : list mreader }.

(** track.rs:16-18 [TrackProducer::new] on a new track *)
Definition msys_new : msys := MSys tsys_new [] None None [].

Inductive mop :=
| MWrite (f : mframe)        (* call write: everything before its first critical section *)
| MStep                      (* the next critical section of the write in progress *)
| MConsume                   (* inner.consume() *)
| MNext (c : nat)            (* poll next_group on track consumer [c]; a group makes a new reader *)
| MRead (r : nat).           (* poll read_frame on reader [r] *)

Inductive mout :=
| MUnit | MPanic | MBad
| MGroup (a : await (option group))
| MGot (a : await (option mframe))
| MGarbage.                  (* the decode error of group.rs:46 *)

Definition mwith_track s x := MSys x (ms_groups s) (ms_cur s) (ms_job s) (ms_readers s).
Definition mwith_groups s x := MSys (ms_track s) x (ms_cur s) (ms_job s) (ms_readers s).
Definition mwith_cur s x := MSys (ms_track s) (ms_groups s) x (ms_job s) (ms_readers s).
Definition mwith_job s x := MSys (ms_track s) (ms_groups s) (ms_cur s) x (ms_readers s).
Definition mwith_readers s x := MSys (ms_track s) (ms_groups s) (ms_cur s) (ms_job s) x.

(** Several operations of one group without interruption; [false] if one of them went wrong. *)
Definition gout_ok (x : gout) : bool :=
  match x with GPanic | GBad | GFrameOut FPanic | GFrameOut FBad => false | _ => true end.
Fixpoint gsteps (w : N) (g : gsys) (ops : list gop) : gsys * bool :=
  match ops with
  | [] => (g, true)
  | o :: ops => let (g, x) := gstep w g o in
                if gout_ok x then gsteps w g ops else (g, false)
  end.

(** A step of the write on the current group.  On a panic the write is over, and the group was
    already taken out of [self.group] (track.rs:31). *)
Definition on_group (w : N) (s : msys) (ops : gsys -> list gop) (cur : option nat) (job : option (stage * mframe))
  : msys * mout :=
  match ms_cur s with
  | None => (s, MBad)
  | Some j =>
    match nth_error (ms_groups s) j with
    | None => (s, MBad)
    | Some g =>
      let (g, ok) := gsteps w g (ops g) in
      let s := mwith_groups s (set_nth j g (ms_groups s)) in
      if ok then (mwith_job (mwith_cur s cur) job, MUnit)
      else (mwith_job (mwith_cur s None) None, MPanic)
    end
  end.

(** The number of the frame the writer made last. *)
Definition last_frame (g : gsys) : nat := pred (length (gs_heap g)).

(** track.rs:20-43 [write] *)
Definition mwrite (w : N) (m : mode) (s : msys) (j : stage) (f : mframe) : msys * mout :=
  match j with
  | SFinish => on_group w s (fun _ => [GFinish 0]) None (Some (SAppend1, f))            (* 25-29 *)
  | SAppend1 =>                                                                          (* 33 *)
      let (t, x) := tstep m (ms_track s) (TAppend1 0) in
      let s := mwith_track s t in
      match x with
      | TUnit => (mwith_job s (Some (SAppend2, f)), MUnit)
      | _ => (mwith_job s None, MPanic)
      end
  | SAppend2 =>
      let j := length (ms_groups s) in
      let (t, x) := tstep m (ms_track s) (TAppend2 0 j) in
      let s := mwith_track s t in
      match x with
      | TAppended _ =>
          (* the track keeps consumer 0 of the group *)
          (mwith_job (mwith_cur (mwith_groups s (ms_groups s ++ [fst (gstep w gsys_new (GConsume 0))])) (Some j))
             (Some (SCreate, f)), MUnit)
      | _ => (mwith_job s None, MPanic)
      end
  | SCreate => on_group w s (fun g => create_frame 0 (length (gs_heap g)) (media_size f))
                 (ms_cur s) (Some (SHeader, f))                                          (* 37 *)
  | SHeader => on_group w s (fun g => [GFrame (last_frame g) (FWrite 0 (header_of f))])
                 (ms_cur s) (Some (SPayload, f))                                         (* 38 *)
  | SPayload => on_group w s (fun g => [GFrame (last_frame g) (FWrite 0 (mf_data f))])
                 (ms_cur s) (Some (SEnd, f))                                             (* 39 *)
  | SEnd => on_group w s (fun g => [GFrame (last_frame g) (FFinish 0)]) (ms_cur s) None  (* 40-42 *)
  end.

(** group.rs:40-59 [read_frame_unbuffered] after the moq frame arrived. *)
Definition media_decode (index : nat) (payload : bytes) : option mframe :=
  match u64_decode payload with
  | DOk micros rest => Some (MFrame (micros * 1000) (Nat.eqb index 0) rest)
  | _ => None
  end.

Definition mstep (w : N) (m : mode) (s : msys) (o : mop) : msys * mout :=
  match o with
  | MWrite f =>
      match ms_job s with
      | Some _ => (s, MBad)                                              (* [&mut self] *)
      | None =>
        match media_header (mf_ts f) with
        | Panic => (s, MPanic)                                           (* 23 *)
        | Val _ =>
          let j := match ms_cur s with
                   | Some _ => if mf_key f then SFinish else SCreate
                   | None => SAppend1
                   end in
          (mwith_job s (Some (j, f)), MUnit)
        end
      end
  | MStep =>
      match ms_job s with
      | None => (s, MBad)
      | Some (j, f) => mwrite w m s j f
      end
  | MConsume =>
      let (t, x) := tstep m (ms_track s) (TConsume 0) in
      (mwith_track s t, match x with TUnit => MUnit | _ => MBad end)
  | MNext c =>
      let (t, x) := tstep m (ms_track s) (TNext c) in
      let s := mwith_track s t in
      match x with
      | TGot (AOk (Some gr)) =>
          match nth_error (ms_groups s) (g_id gr) with
          | None => (s, MBad)
          | Some g =>
            let (g', x) := gstep w g (GCClone 0) in
            (mwith_readers (mwith_groups s (set_nth (g_id gr) g' (ms_groups s)))
               (ms_readers s ++ [MReader (g_id gr) (length (gs_cons g)) 0]), MGroup (AOk (Some gr)))
          end
      | TGot a => (s, MGroup a)
      | TPanics => (s, MPanic)
      | _ => (s, MBad)
      end
  | MRead r =>
      match nth_error (ms_readers s) r with
      | None => (s, MBad)
      | Some rd =>
        match nth_error (ms_groups s) (mr_group rd) with
        | None => (s, MBad)
        | Some g =>
          let (g, x) := gstep w g (GRead (mr_cons rd)) in
          let s := mwith_groups s (set_nth (mr_group rd) g (ms_groups s)) in
          match x with
          | GGotAll (AOk (Some b)) =>
              match media_decode (mr_index rd) b with
              | None => (s, MGarbage)
              | Some f =>
                (mwith_readers s (set_nth r (MReader (mr_group rd) (mr_cons rd) (S (mr_index rd))) (ms_readers s)),
                 MGot (AOk (Some f)))
              end
          | GGotAll (AOk None) => (s, MGot (AOk None))
          | GGotAll (AErr e) => (s, MGot (AErr e))
          | GGotAll APending => (s, MGot APending)
          | GGotAll AFuel => (s, MGot AFuel)
          | GPanic => (s, MPanic)
          | _ => (s, MBad)
          end
        end
      end
  end.

Fixpoint mrun (w : N) (m : mode) (s : msys) (ops : list mop) : msys * list (mop * mout) :=
  match ops with
  | [] => (s, [])
  | o :: ops => let (s1, x) := mstep w m s o in let (s2, tr) := mrun w m s1 ops in (s2, (o, x) :: tr)
  end.
