(** js/hang/src/publish/chat.ts:13-87: the chat of a broadcast, with messages that expire.

    Times are natural numbers of milliseconds.  Simplified: timers run when they are due; writing text is one frame; the catalog (34-42) is left
    out.  [h_ng]: how many groups were made, the last one being [#group]; [h_due]: when the timer of [#expires] is due, if it is set. *)
From Coq Require Import NArith List Bool.
Import ListNotations.
Open Scope N_scope.

Record chat := Chat { h_now : N; h_ttl : option N; h_ng : nat; h_due : option N }.
Definition h_init : chat := Chat 0 None 0 None.

Inductive hop := HTtl (t : option N) | HPublish (m : nat) | HClear | HClose | HWait (n : N).
(** What the page does ([I…]) and what is written to the track ([O…]) *)
Inductive hev :=
| ITtl (t : option N) | IPublish (m : nat) | IClear | IClose | IWait (n : N)
| OGroup (g : nat) | OFrame (g m : nat) | OEnd (g : nat).

Definition end_last (s : chat) : list hev := match h_ng s with O => [] | S g => [OEnd g] end.

(** chat.ts:46-66 *)
Definition publish (s : chat) (m : nat) : chat * list hev :=
  (Chat (h_now s) (h_ttl s) (S (h_ng s))
     (match h_ttl s with Some (N.pos p) => Some (h_now s + N.pos p) | _ => None end),
   end_last s ++ [OGroup (h_ng s); OFrame (h_ng s) m]).
(** chat.ts:73-78 *)
Definition clear (s : chat) : chat * list hev :=
  (Chat (h_now s) (h_ttl s) (S (h_ng s)) (h_due s), end_last s ++ [OGroup (h_ng s)]).

Definition emit (e : hev) (r : chat * list hev) : chat * list hev := (fst r, e :: snd r).
Definition h_step (s : chat) (o : hop) : chat * list hev :=
  match o with
  | HTtl t => (Chat (h_now s) t (h_ng s) (h_due s), [ITtl t])
  | HPublish m => emit (IPublish m) (publish s m)
  | HClear => emit IClear (clear s)
  | HClose => (Chat (h_now s) (h_ttl s) (h_ng s) None, IClose :: end_last s)   (* 80-87 *)
  | HWait n =>
    let now := h_now s + n in
    emit (IWait n)
      (match h_due s with
       | Some d => if d <=? now then clear (Chat now (h_ttl s) (h_ng s) None) else (Chat now (h_ttl s) (h_ng s) (h_due s), [])
       | None => (Chat now (h_ttl s) (h_ng s) None, [])
       end)
  end.
Fixpoint h_run (s : chat) (ops : list hop) : chat * list hev :=
  match ops with [] => (s, []) | o :: ops => let (s, a) := h_step s o in let (s, b) := h_run s ops in (s, a ++ b) end.
