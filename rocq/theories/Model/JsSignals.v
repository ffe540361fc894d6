(** js/signals/src/index.ts:78-171: effects and memos, and what their functions hold.

    Each run of a function is numbered and holds one thing that its [cleanup] gives back.  solid-js is taken to do what it documents: an effect that runs
    again first runs its cleanups, and a root that is closed runs the cleanups of its effects and then its own, among them those of functions that
    were called outside of any effect.  A computation is the run made outside of the effect, for a memo (line 83), and the last run of the effect
    (84-87).  Left out: values, batches, effects within effects, making more after [close]. *)
From Coq Require Import Arith List Bool.
Import ListNotations.

Record root := Root { r_closed : bool; r_comps : list (option nat * nat); r_next : nat }.
Definition r_init : root := Root false [] 0.
Inductive sop := SEffect | SMemo | SChange (k : nat) | SClose.
Inductive sev := EMemo (k : nat) | EEffect (k : nat) | EGot (k n : nat) | EFree (n : nat) | EClosed.

Fixpoint set_cur (l : list (option nat * nat)) (k n : nat) : list (option nat * nat) :=
  match l, k with [], _ => [] | (f, _) :: l, O => (f, n) :: l | c :: l, S k => c :: set_cur l k n end.
Definition firsts (l : list (option nat * nat)) : list nat := flat_map (fun c => match fst c with Some n => [n] | None => [] end) l.

Definition s_step (s : root) (o : sop) : root * list sev :=
  if r_closed s then (s, []) else
  let k := length (r_comps s) in let n := r_next s in
  match o with
  | SEffect => (Root false (r_comps s ++ [(None, n)]) (S n), [EEffect k; EGot k n])
  | SMemo => (Root false (r_comps s ++ [(Some n, S n)]) (S (S n)), [EMemo k; EGot k n; EGot k (S n)])
  | SChange k =>
    match nth_error (r_comps s) k with
    | Some (_, c) => (Root false (set_cur (r_comps s) k n) (S n), [EFree c; EGot k n])
    | None => (s, [])
    end
  | SClose => (Root true (r_comps s) n, EClosed :: map EFree (map snd (r_comps s)) ++ map EFree (firsts (r_comps s)))
  end.
Fixpoint s_run (s : root) (ops : list sop) : root * list sev :=
  match ops with [] => (s, []) | o :: ops => let (s, a) := s_step s o in let (s, b) := s_run s ops in (s, a ++ b) end.
