(** What users of a frame observe, read off the events of an execution only. *)
From Coq Require Import NArith ZArith List Bool.
From Coq Require Import Init.Byte Strings.Byte.
From Verif.Model Require Import Base ErrorCode Stream Frame FrameSys.
Import ListNotations.
Open Scope N_scope.

Definition event : Type := fop * fout.

(** Bytes written: those of the writes that did not panic. *)
Definition wrote (e : event) : bytes := match e with (FWrite _ c, FUnit) => c | _ => [] end.
Definition written (tr : list event) : bytes := concat (map wrote tr).

(** What each reader (in order of creation) has been handed so far; a cloned reader starts from what
    its original had been handed. *)
Definition watch (seen : list bytes) (e : event) : list bytes :=
  match e with
  | (FConsume _, FUnit) => seen ++ [[]]
  | (FCClone c, FUnit) => seen ++ [nth c seen []]
  | (FRead c, FGot (AOk (Some b))) => set_nth c (nth c seen [] ++ b) seen
  | (FReadAll c, FAll (AOk b)) => set_nth c (nth c seen [] ++ b) seen
  | _ => seen
  end.
Definition observed (tr : list event) : list bytes := fold_left watch tr [].

(** The reader is told that the frame ended. *)
Definition told_end (e : event) (c : nat) : Prop :=
  e = (FRead c, FGot (AOk None)) \/ exists b, e = (FReadAll c, FAll (AOk b)).

Definition never_cloned (ops : list fop) : Prop :=
  Forall (fun o => match o with FClone _ => False | _ => True end) ops.

Definition clones (ops : list fop) : N :=
  N.of_nat (length (filter (fun o => match o with FClone _ => true | _ => false end) ops)).

(** How the frame was closed, if it was: the last [finish] or [abort] that went through. *)
Definition closing (v : option outcome) (e : event) : option outcome :=
  match e with
  | (FFinish _, FUnit) => Some Finished
  | (FAbort _ r, FUnit) => Some (Failed r)
  | _ => v
  end.
Definition verdict (tr : list event) : option outcome := fold_left closing tr None.

(** Number of things that keep the frame open for writing: the first producer, plus clones and
    [unused] futures made, minus those used up or dropped. *)
Definition balance (n : Z) (e : event) : Z :=
  match e with
  | (FClone _, FUnit) | (FUnused _, FUnit) => n + 1
  | (FFinish _, FUnit) | (FFinish _, FPanic) | (FAbort _ _, FUnit) | (FDrop _, FUnit)
  | (FUnusedDrop, FUnit) => n - 1
  | _ => n
  end%Z.
Definition senders (tr : list event) : Z := fold_left balance tr 1%Z.

Definition no_panic (tr : list event) : Prop := Forall (fun e => snd e <> FPanic) tr.

(** What a reader that has caught up is told. *)
Definition at_end (v : option outcome) : await (option bytes) :=
  match v with
  | Some Finished => AOk None
  | Some (Failed e) => AErr e
  | None => AErr Cancel
  end.

(** The bytes each writer (in order of creation) has tried to write so far; a cloned writer starts from
    what its original had tried. *)
Definition tally (t : list N) (e : event) : list N :=
  match e with
  | (FWrite p c, FUnit) | (FWrite p c, FPanic) => set_nth p (nth p t 0 + len c) t
  | (FClone p, FUnit) => t ++ [nth p t 0]
  | _ => t
  end.
Definition attempted (tr : list event) : list N := fold_left tally tr [0].
