(** The media reader that moves from group to group: rs/hang/src/model/track.rs:56-157 and
    rs/hang/src/model/group.rs:8-82.  What the moq layer answers to each poll is given by the
    environment; the payload of a frame is stood for by its group and its number in it. *)
From Coq Require Import NArith List Bool.
From Verif.Model Require Import Base FrameSys.
Import ListNotations.
Open Scope N_scope.

(** A frame as returned: group sequence, number in the group, timestamp (nanoseconds). *)
Record rframe := RFrame { rf_seq : N; rf_idx : nat; rf_ts : N }.

(** One poll of [read_frame_unbuffered] (group.rs:40-59): a frame, the end, an error of the group or
    of decoding, or nothing yet. *)
Inductive fans := FFrame (ts : N) | FEnd | FFail | FWait.
(** One poll of [next_group] (track.rs:109): a group, the end, an error, or nothing yet. *)
Inductive nans := NGroup (seq : N) | NEnd | NFail | NWait.

(** group.rs:8-19 [GroupConsumer] *)
Record rgroup := RG { rg_seq : N; rg_index : nat; rg_buf : list rframe; rg_max : option N }.
(** group.rs:22-29 *)
Definition rg_new (seq : N) : rgroup := RG seq 0 [] None.

(** group.rs:48-58: the frame and the new state, once a payload with timestamp [ts] has arrived. *)
Definition rg_frame (g : rgroup) (ts : N) : rframe * rgroup :=
  (RFrame (rg_seq g) (rg_index g) ts,
   RG (rg_seq g) (S (rg_index g)) (rg_buf g)
      (Some (N.max (match rg_max g with Some m => m | None => 0 end) ts))).

Definition with_buf (g : rgroup) (b : list rframe) : rgroup := RG (rg_seq g) (rg_index g) b (rg_max g).

(** What a poll of [buffer_frames_until] does: returns, waits (for data, or forever after an end or
    an error, group.rs:74), or is still looping when the fuel is spent. *)
Inductive bout := BReady (ts : N) | BWait | BLoop.

(** group.rs:64-77 [buffer_frames_until], one poll; [env]: the answers of the group, one per read.
    A poll restarts at the top: all progress is in the group.  (After an end or an error the code
    does not ask again in the same [select]; here it may be answered again.) *)
Fixpoint buffer_until (fuel : nat) (cutoff : N) (g : rgroup) (env : list fans) : bout * rgroup :=
  match fuel with
  | O => (BLoop, g)
  | S fuel =>
    match match rg_max g with Some m => if cutoff <=? m then Some m else None | None => None end with
    | Some m => (BReady m, g)                                                            (* 66-69 *)
    | None =>
      match rg_buf g with
      | f :: rest => buffer_until fuel cutoff (with_buf g (rest ++ [f])) env             (* 33-34, 72 *)
      | [] =>
        match env with
        | FFrame ts :: env => let (f, g) := rg_frame g ts in
                              buffer_until fuel cutoff (with_buf g (rg_buf g ++ [f])) env
        | _ => (BWait, g)
        end
      end
    end
  end.

(** track.rs:56-70 [TrackConsumer] *)
Record reader := Rd { rd_cur : option rgroup; rd_pending : list rgroup; rd_max : N; rd_lat : N }.
(** track.rs:73-81 *)
Definition rd_new : reader := Rd None [] 0 0.

(** [Duration::MAX] in nanoseconds. *)
Definition duration_max : N := 2 ^ 64 * 10 ^ 9 - 1.

Inductive rop :=
| RLatency (d : N)                                         (* set_latency *)
| RPoll (fuel : nat) (cur : fans) (next : nans) (bufs : list (nat * list fans)).
   (* one poll of the select in read: the answers of the current group, of next_group, and the
      pending groups polled (in any order, track.rs:90-93) with their answers *)

Inductive rout :=
| RUnit
| RGot (f : rframe) | REnd | RErr       (* read returned *)
| RMove                                 (* round the loop again: the current group ended *)
| RArrived (seq : N)                    (* the same: a group arrived *)
| RSkip (ts : N)                        (* the same: skipped to a later group *)
| RWait                                 (* pending *)
| RHang                                 (* still inside buffer_frames_until *)
| RPanics.

(** track.rs:119: [partition_point] on the sorted queue, then [insert]. *)
Fixpoint insert_pending (g : rgroup) (l : list rgroup) : list rgroup :=
  match l with
  | [] => [g]
  | h :: t => if rg_seq h <? rg_seq g then h :: insert_pending g t else g :: h :: t
  end.

(** [VecDeque::pop_front] *)
Definition pop (s : reader) : reader :=
  match rd_pending s with
  | [] => Rd None [] (rd_max s) (rd_lat s)
  | g :: rest => Rd (Some g) rest (rd_max s) (rd_lat s)
  end.

(** track.rs:125-139, the third branch of the select. *)
Fixpoint buffering (fuel : nat) (cutoff : N) (s : reader) (bufs : list (nat * list fans)) : reader * rout :=
  match bufs with
  | [] => (s, RWait)
  | (i, env) :: bufs =>
    match nth_error (rd_pending s) i with
    | None => buffering fuel cutoff s bufs
    | Some g =>
      let (b, g) := buffer_until fuel cutoff g env in
      let s := Rd (rd_cur s) (set_nth i g (rd_pending s)) (rd_max s) (rd_lat s) in
      match b with
      | BReady ts => (pop (Rd (rd_cur s) (skipn i (rd_pending s)) (rd_max s) (rd_lat s)), RSkip ts)  (* 132-138 *)
      | BWait => buffering fuel cutoff s bufs
      | BLoop => (s, RHang)
      end
    end
  end.

(** track.rs:109-124 then 125-140 *)
Definition select_rest (fuel : nat) (cutoff : N) (s : reader) (next : nans) (bufs : list (nat * list fans)) : reader * rout :=
  match next with
  | NFail => (s, RErr)                                                                   (* 110 *)
  | NGroup seq =>
      match rd_cur s with
      | Some c => if seq <? rg_seq c then (s, RArrived seq)                                       (* 114-117 *)
                  else (Rd (rd_cur s) (insert_pending (rg_new seq) (rd_pending s)) (rd_max s) (rd_lat s), RArrived seq)
      | None => (Rd (Some (rg_new seq)) (rd_pending s) (rd_max s) (rd_lat s), RArrived seq)       (* 123 *)
      end
  | _ =>
      let (s, x) := buffering fuel cutoff s bufs in
      match x, rd_cur s, next, rd_pending s with
      | RWait, None, NEnd, [] => (s, REnd)                                               (* 140 *)
      | _, _, _, _ => (s, x)
      end
  end.

(** track.rs:83-147 [read], one turn of its loop; 149-151 [set_latency] *)
Definition rstep (s : reader) (o : rop) : reader * rout :=
  match o with
  | RLatency d => (Rd (rd_cur s) (rd_pending s) (rd_max s) d, RUnit)
  | RPoll fuel cur next bufs =>
      let cutoff := rd_max s + rd_lat s in
      if duration_max <? cutoff then (s, RPanics)                                        (* 85 *)
      else
        match rd_cur s with
        | Some g =>
          match rg_buf g with
          | f :: rest => (Rd (Some (with_buf g rest)) (rd_pending s) (rf_ts f) (rd_lat s), RGot f)     (* 101-103 *)
          | [] =>
            match cur with
            | FFrame ts => let (f, g) := rg_frame g ts in (Rd (Some g) (rd_pending s) ts (rd_lat s), RGot f)
            | FEnd => (pop s, RMove)                                                       (* 104-107 *)
            | FFail => (s, RErr)                                                         (* 99 *)
            | FWait => select_rest fuel cutoff s next bufs
            end
          end
        | None => select_rest fuel cutoff s next bufs
        end
  end.

Fixpoint rrun (s : reader) (ops : list rop) : reader * list (rop * rout) :=
  match ops with
  | [] => (s, [])
  | o :: ops => let (s1, x) := rstep s o in let (s2, tr) := rrun s1 ops in (s2, (o, x) :: tr)
  end.
