(** What users of a group observe. *)
From Coq Require Import NArith List Bool.
From Coq Require Import Init.Byte Strings.Byte.
From Verif.Model Require Import Base ErrorCode Stream Frame FrameSys GroupSys.
Import ListNotations.

Definition gevent : Type := gop * gout.

(** The frames appended, in order, each with the position its consumer was at. *)
Definition append_of (e : gevent) : list entry :=
  match e with (GAppend _ f _, GAppended i) => [(f, i)] | _ => [] end.
Definition appended (tr : list gevent) : list entry := flat_map append_of tr.

(** What a reader obtains: a reader for a frame, or a whole frame at once. *)
Inductive item := ITake (e : entry) | IWhole (b : bytes).

Definition gwatch (seen : list (list item)) (e : gevent) : list (list item) :=
  match e with
  | (GConsume _, GUnit) => seen ++ [[]]
  | (GCClone c, GUnit) => seen ++ [nth c seen []]
  | (GNext c, GGot (AOk (Some e))) => set_nth c (nth c seen [] ++ [ITake e]) seen
  | (GRead c, GGotAll (AOk (Some b))) => set_nth c (nth c seen [] ++ [IWhole b]) seen
  | _ => seen
  end.
Definition obtained (tr : list gevent) : list (list item) := fold_left gwatch tr [].

(** The bytes of frame [f] from position [i] on. *)
Definition payload (heap : list fsys) (e : entry) : bytes :=
  match nth_error heap (fst e) with
  | Some fs => concat (skipn (snd e) (fs_chunks (sy_state fs)))
  | None => []
  end.
Definition frame_closed (heap : list fsys) (e : entry) : option outcome :=
  match nth_error heap (fst e) with Some fs => fs_closed (sy_state fs) | None => None end.

(** The item is that entry; a whole frame has all its bytes and its frame accepts no more. *)
Definition item_is (heap : list fsys) (x : item) (e : entry) : Prop :=
  match x with
  | ITake e' => e' = e
  | IWhole b => b = payload heap e /\ frame_closed heap e <> None
  end.

Definition group_told_end (e : gevent) (c : nat) : Prop :=
  e = (GNext c, GGot (AOk None)) \/ e = (GRead c, GGotAll (AOk None)).

(** How the group was closed: the last [finish] or [abort]. *)
Definition gclosing (v : option outcome) (e : gevent) : option outcome :=
  match e with
  | (GFinish _, GUnit) => Some Finished
  | (GAbort _ r, GUnit) => Some (Failed r)
  | _ => v
  end.
Definition gverdict (tr : list gevent) : option outcome := fold_left gclosing tr None.

Definition outputs (r : gsys * list gevent) : list gout := map snd (snd r).
