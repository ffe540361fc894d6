(** Playback order, from the calls, the arrivals and the results alone. *)
From Coq Require Import NArith List Bool.
From Verif.Model Require Import Base MediaRead.
Import ListNotations.
Open Scope N_scope.

Notation revent := (rop * rout)%type.

(** The groups the track handed to the reader, by sequence number. *)
Definition arrivals (tr : list revent) : list N :=
  flat_map (fun e => match e with (_, RArrived seq) => [seq] | _ => [] end) tr.
(** The frames returned. *)
Definition played (tr : list revent) : list rframe :=
  flat_map (fun e => match e with (_, RGot f) => [f] | _ => [] end) tr.

(** [b] may directly follow [a]: the next frame of the same group, or the first of a later group. *)
Definition follows (a b : rframe) : Prop :=
  (rf_seq a = rf_seq b /\ rf_idx b = S (rf_idx a)) \/ (rf_seq a < rf_seq b /\ rf_idx b = O).
Fixpoint playback (l : list rframe) : Prop :=
  match l with
  | [] => True
  | a :: rest => match rest with [] => True | b :: _ => follows a b end /\ playback rest
  end.
Definition in_playback_order (l : list rframe) : Prop :=
  match l with [] => True | a :: _ => rf_idx a = O end /\ playback l.

(** Strictly increasing. *)
Fixpoint increasing_seqs (l : list N) : Prop :=
  match l with
  | [] => True
  | a :: rest => (forall b, In b rest -> a < b) /\ increasing_seqs rest
  end.
