(** What users of a track observe. *)
From Coq Require Import NArith List Bool.
From Verif.Model Require Import Base ErrorCode Stream Frame FrameSys TrackSys.
Import ListNotations.
Open Scope N_scope.

Definition tevent : Type := top * tout.

(** Groups the track accepted, oldest first. *)
Definition accept_of (e : tevent) : list group :=
  match e with
  | (TInsert _ g, TInserted true) => [g]
  | (TAppend2 _ _, TAppended g) => [g]
  | _ => []
  end.
Definition accepted (tr : list tevent) : list group := flat_map accept_of tr.

(** Groups each reader obtained, oldest first; a clone starts from what its original had. *)
Definition twatch (seen : list (list group)) (e : tevent) : list (list group) :=
  match e with
  | (TConsume _, TUnit) => seen ++ [[]]
  | (TCClone c, TUnit) => seen ++ [nth c seen []]
  | (TNext c, TGot (AOk (Some g))) => set_nth c (nth c seen [] ++ [g]) seen
  | _ => seen
  end.
Definition groups (tr : list tevent) : list (list group) := fold_left twatch tr [].

Definition tclosing (v : option outcome) (e : tevent) : option outcome :=
  match e with
  | (TFinish _, TUnit) => Some Finished
  | (TAbort _ r, TUnit) => Some (Failed r)
  | _ => v
  end.
Definition tverdict (tr : list tevent) : option outcome := fold_left tclosing tr None.

(** Sequence numbers strictly increase along the list. *)
Fixpoint increasing (l : list group) : Prop :=
  match l with
  | [] => True
  | g :: l => Forall (fun h => g_seq g < g_seq h) l /\ increasing l
  end.

(** [g] is newer than everything in [l]. *)
Definition newer_than_all (g : group) (l : list group) : Prop := Forall (fun h => g_seq h < g_seq g) l.
(** [g] is in [l] and nothing in [l] is newer. *)
Definition newest (g : group) (l : list group) : Prop := In g l /\ Forall (fun h => g_seq h <= g_seq g) l.
