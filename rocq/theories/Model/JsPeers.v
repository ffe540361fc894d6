(** js/hang/src/publish/location.ts:64-127: asking peers for their position, by their handle.

    Handles are numbers, [None] for those that are not set or empty.  A memo runs its function twice when it is made
    (js/signals/src/index.ts:78-90): once on its own, whose cleanups belong to the whole peer and run when that is closed, and once as an effect,
    whose cleanups also run when the handle changes.  An open peer is the handle of the first run and the one of the effect.  The catalog is the list of the
    handles in the record of line 30; the tracks of the broadcast (js/moq/src/broadcast.ts:46-70) are the list of their handles.  Left out: the
    position itself, and [enabled]. *)
From Coq Require Import Arith List Bool.
Import ListNotations.

Notation peer := (option nat * option nat)%type.
Record peers := Peers { p_open : list (option peer); p_cat : list nat; p_tracks : list nat }.
Definition p_init : peers := Peers [] [] [].
Inductive pop := PNew (h : option nat) | PSet (i : nat) (h : option nat) | PClose (i : nat).

Definition del (h : nat) (l : list nat) : list nat := filter (fun x => negb (x =? h)) l.
Definition put (h : nat) (l : list nat) : list nat := h :: del h l.
Fixpoint upd (l : list (option peer)) (i : nat) (p : option peer) : list (option peer) :=
  match l, i with [] , _ => [] | _ :: l, O => p :: l | x :: l, S i => x :: upd l i p end.

(** The cleanups of lines 100 and 112-119 *)
Definition stop (h : option nat) (s : peers) : peers :=
  match h with None => s | Some h => Peers (p_open s) (del h (p_cat s)) (del h (p_tracks s)) end.
(** The function of the memo, lines 92-125 *)
Definition start (h : option nat) (s : peers) : peers :=
  match h with None => s | Some h => Peers (p_open s) (put h (p_cat s)) (put h (p_tracks s)) end.

(** [close]: what the effect has to clean up, then the rest *)
Definition p_step (s : peers) (o : pop) : peers :=
  match o with
  | PNew h => start h (start h (Peers (p_open s ++ [Some (h, h)]) (p_cat s) (p_tracks s)))
  | PSet i h =>
    match nth_error (p_open s) i with
    | Some (Some (f, c)) => start h (stop c (Peers (upd (p_open s) i (Some (f, h))) (p_cat s) (p_tracks s)))
    | _ => s
    end
  | PClose i =>
    match nth_error (p_open s) i with
    | Some (Some (f, c)) => stop f (stop c (Peers (upd (p_open s) i None) (p_cat s) (p_tracks s)))
    | _ => s
    end
  end.
Definition p_run (ops : list pop) : peers := fold_left p_step ops p_init.
