(** What is sent to the audio worklet and what it plays. *)
From Coq Require Import NArith List Bool Arith.
From Verif.Model Require Import Base Audio.
Import ListNotations.
Open Scope nat_scope.

(** * Playing *)

(** The number of samples of a message, and what one output channel is to play of it: channels that the
    message does not have are silent. *)
Definition size (m : message) : nat := match ms_channels m with [] => 0 | c :: _ => length c end.
Definition lane (i : nat) (m : message) : list sample := nth i (ms_channels m) (repeat 0%N (size m)).
(** At least one channel, and the same number of samples in each, at least one. *)
Definition proper (m : message) : Prop := 1 <= size m /\ Forall (fun c => length c = size m) (ms_channels m).

Definition total (ms : list message) : nat := list_sum (map size ms).
(** How many of [ms] are over after [k] samples. *)
Fixpoint finished (k : nat) (ms : list message) : nat :=
  match ms with
  | [] => 0
  | m :: ms => if Nat.leb (size m) k then S (finished (k - size m) ms) else 0
  end.

(** What is to be played and how many samples of it have been.  A message that finds five that are not over
    replaces all of them but the first. *)
Definition account (k : list message * nat) (o : rop) : list message * nat :=
  let (ms, played) := k in
  match o with
  | RMessage m => let d := finished played ms in
                  if Nat.ltb (length ms - d) 5 then (ms ++ [m], played) else (firstn (S d) ms ++ [m], played)
  | RProcess c n => (ms, played + Nat.min n (total ms - played))
  end.
Definition accounts (ops : list rop) : list message * nat := fold_left account ops ([], 0).
(** Still to be played after [ops]. *)
Definition ahead (ops : list rop) : nat := total (fst (accounts ops)) - snd (accounts ops).

(** The next [n] samples, then silence. *)
Definition to_hear (ops : list rop) (n i : nat) : list sample :=
  let (ms, played) := accounts ops in
  let s := firstn n (skipn played (concat (map (lane i) ms))) in s ++ repeat 0%N (n - length s).

(** Messages are proper, and there is an output to play on. *)
Definition usual (o : rop) : Prop := match o with RMessage m => proper m | RProcess c _ => 1 <= c end.
Definition received (ops : list rop) : list message := flat_map (fun o => match o with RMessage m => [m] | _ => [] end) ops.

(** A list without some of its elements. *)
Inductive part_of {A} : list A -> list A -> Prop :=
| part_none : part_of [] []
| part_keep x l l' : part_of l l' -> part_of (x :: l) (x :: l')
| part_skip x l l' : part_of l l' -> part_of l (x :: l').

(** The same, without its time. *)
Definition timeless (o : rop) : rop := match o with RMessage m => RMessage (Sound (ms_channels m) 0) | o => o end.

(** * Sending *)

Definition posts (tr : list (aop * list (nat * message))) : list (nat * message) := flat_map snd tr.
Definition posts_to (p : nat) (tr : list (aop * list (nat * message))) : list message :=
  map snd (filter (fun x => Nat.eqb (fst x) p) (posts tr)).

(** As WebCodecs has it: at least one plane and one sample, the planes of equal length. *)
Definition whole (d : audio_data) : Prop :=
  1 <= ad_frames d /\ 1 <= length (ad_planes d) /\ Forall (fun p => length p = ad_frames d) (ad_planes d).

(** Frames in one format. *)
Definition alike (from : N) (c : nat) (d : audio_data) : Prop := whole d /\ ad_rate d = from /\ length (ad_planes d) = c.
Definition decoded_whole (o : aop) : Prop := match o with ODecoded d => whole d | _ => True end.
(** A resampler that puts out the same number of samples in every channel. *)
Definition even_engine (e : engine) : Prop := forall r, Forall (fun c => length c = out_length (en_out e r)) (en_out e r).

(** All the samples of a channel. *)
Definition stream (j : nat) (ds : list audio_data) : list sample := concat (map (fun d => nth j (ad_planes d) []) ds).
Definition samples (ds : list audio_data) : nat := list_sum (map ad_frames ds).
(** The [k]th chunk of [n] samples of [c] channels. *)
Definition chunk (n c k : nat) (ds : list audio_data) : list (list sample) :=
  map (fun j => firstn n (skipn (k * n) (stream j ds))) (seq 0 c).
(** The time of the frame which sample [i] is in. *)
Fixpoint time_at (i : nat) (ds : list audio_data) : N :=
  match ds with
  | [] => 0%N
  | d :: ds => if Nat.ltb i (ad_frames d) then ad_time d else time_at (i - ad_frames d) ds
  end.

(** What is to be sent for frames [ds] at rate [from] with [c] channels when the worklet plays at rate [to]:
    what the resampler makes of one chunk after the other, unless that is nothing. *)
Definition resampled (e : engine) (to from : N) (n c : nat) (ds : list audio_data) : list message :=
  flat_map (fun k => let o := en_out e (Resampler to from n c (map (fun k => chunk n c k ds) (seq 0 (S k)))) in
                     if Nat.eqb (out_length o) 0 then [] else [Sound o (N.modulo (time_at (k * n + (n - 1)) ds) (2 ^ 64))])
           (seq 0 (samples ds / n)).

(** A player with a track that is played. *)
Definition playing (p : nat) (rate : N) (a : audio) : Prop :=
  au_worklet a = Some p /\ au_rate a = rate /\ au_track a <> None /\ au_dead a = false.
