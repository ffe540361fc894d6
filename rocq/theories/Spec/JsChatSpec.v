(** Which message of a chat should be seen, and which is. *)
From Coq Require Import NArith List Bool.
From Verif.Model Require Import JsChat.
Import ListNotations.
Open Scope N_scope.

Notation hlog := (list hev).

(** Seen by those who join: what is in the last group *)
Definition seen (l : hlog) : option nat :=
  fold_left (fun x e => match e with OGroup _ => None | OFrame _ m => Some m | _ => x end) l None.

(** To be seen: the last message, until it is cleared, or has been there for as long as the setting said when it was published.  Clock, setting,
    message with the time of its end *)
Definition due_step (x : N * option N * option (nat * option N)) (e : hev) : N * option N * option (nat * option N) :=
  let '(now, ttl, cur) := x in
  match e with
  | ITtl t => (now, t, cur)
  | IPublish m => (now, ttl, match ttl with Some t => if t =? 0 then None else Some (m, Some (now + t)) | None => Some (m, None) end)
  | IClear => (now, ttl, None)
  | IWait n => (now + n, ttl, match cur with Some (m, Some d) => if d <=? now + n then None else cur | _ => cur end)
  | _ => x
  end.
Definition due (l : hlog) : option nat := match snd (fold_left due_step l (0, None, None)) with Some (m, _) => Some m | None => None end.

(** Neither closed nor set to zero *)
Definition plain (o : hop) : Prop := match o with HClose => False | HTtl (Some 0) => False | _ => True end.

(** A group is made when those before, which are numbered lower, have ended. *)
Definition ended_before (l : hlog) : Prop := forall a g b, l = a ++ OGroup g :: b -> forall h, In (OGroup h) a -> (h < g)%nat /\ In (OEnd h) a.
