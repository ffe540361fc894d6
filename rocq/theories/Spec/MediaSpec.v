(** What a media track should carry, from the calls and their results alone. *)
From Coq Require Import NArith List Bool Arith.
From Coq Require Import Init.Byte Strings.Byte.
From Verif.Model Require Import Base ErrorCode Stream Frame FrameSys GroupSys TrackSys Media.
Import ListNotations.
Open Scope nat_scope.

Notation mevent := (mop * mout)%type.

(** The frames whose [write] did not panic up front, in order. *)
Definition written (tr : list mevent) : list mframe :=
  flat_map (fun e => match e with (MWrite f, MUnit) => [f] | _ => [] end) tr.

(** The moq group of each reader, in the order the readers were made. *)
Definition reader_groups (tr : list mevent) : list group :=
  flat_map (fun e => match e with (MNext _, MGroup (AOk (Some g))) => [g] | _ => [] end) tr.

(** The frames reader [r] returned. *)
Definition read_by (r : nat) (tr : list mevent) : list mframe :=
  flat_map (fun e => match e with
                     | (MRead r', MGot (AOk (Some f))) => if Nat.eqb r r' then [f] else []
                     | _ => []
                     end) tr.

(** [gs] cuts [fs] into groups, a new one at exactly the keyframes (and at the first frame). *)
Definition cut_at_keyframes (fs : list mframe) (gs : list (list mframe)) : Prop :=
  concat gs = fs /\
  Forall (fun g => exists f rest, g = f :: rest /\ Forall (fun x => mf_key x = false) rest) gs /\
  Forall (fun g => exists f rest, g = f :: rest /\ mf_key f = true) (tl gs).

(** A frame as a reader sees it: timestamps are in microseconds, the flag marks the first of a group. *)
Definition seen (i : nat) (f : mframe) : mframe :=
  MFrame (mf_ts f / 1000 * 1000) (Nat.eqb i 0) (mf_data f).
Fixpoint seen_from (i : nat) (fs : list mframe) : list mframe :=
  match fs with [] => [] | f :: fs => seen i f :: seen_from (S i) fs end.

(** In range: the timestamp is below 2^62 microseconds, and the frame fits in memory ([w]-bit words). *)
Definition in_range (w : N) (f : mframe) : Prop :=
  (mf_ts f / 1000 < 2 ^ 62)%N /\ (len (mf_data f) + 8 < 2 ^ w)%N.
