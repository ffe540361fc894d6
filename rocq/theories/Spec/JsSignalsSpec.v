(** What the runs of effects and memos hold. *)
From Coq Require Import Arith List Bool.
From Verif.Model Require Import JsSignals.
Import ListNotations.

Notation slog := (list sev).
(** What run [n] of computation [k] holds was not given back *)
Definition held (l : slog) (k n : nat) : Prop := In (EGot k n) l /\ ~ In (EFree n) l.
(** The last run of [k], and the first *)
Definition last_run (l : slog) (k n : nat) : Prop := exists a b, l = a ++ EGot k n :: b /\ forall m, ~ In (EGot k m) b.
Definition first_run (l : slog) (k n : nat) : Prop := exists a b, l = a ++ EGot k n :: b /\ forall m, ~ In (EGot k m) a.
