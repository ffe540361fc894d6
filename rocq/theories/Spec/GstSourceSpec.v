(** What a GStreamer pipeline sees of the source element. *)
From Coq Require Import NArith List Bool.
From Coq Require Import Init.Byte Strings.Byte.
From Verif.Model Require Import Base Media Codec GstSource.
Import ListNotations.
Open Scope N_scope.

(** The frames read on track [k], but one that its task panics at or that no task read; the buffers pushed on its pad. *)
Definition frames (k : nat) (tr : list (gop * list effect)) : list mframe :=
  flat_map (fun e => match e with
    | (_, [EPanic]) | (_, [EBad]) => []
    | (GTurn j (AFrame f), _) => if Nat.eqb j k then [f] else []
    | _ => [] end) tr.
Definition buffers (k : nat) (tr : list (gop * list effect)) : list (N * bool * bytes) :=
  flat_map (fun e => match e with (GTurn j _, [EBuffer t d b]) => if Nat.eqb j k then [(t, d, b)] else [] | _ => [] end) tr.
(** Buffers made of frames: data and flags as they are, times shifted by [o]. *)
Definition shifted (video : bool) (o : N) (f : mframe) (b : N * bool * bytes) : Prop :=
  fst (fst b) + o = mf_ts f /\ snd (fst b) = (video && negb (mf_key f))%bool /\ snd b = mf_data f.
(** The times of [fs] can be shown in the pipeline: 64 bits of nanoseconds. *)
Definition fits (fs : list mframe) : Prop := Forall (fun f => mf_ts f < 2 ^ 64) fs.
