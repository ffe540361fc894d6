(** What is seen of a connection that reconnects by itself, from what happened only. *)
From Coq Require Import NArith List.
From Verif.Model Require Import JsConnect.
Import ListNotations.

Notation jclog := (list (jcop * jcout)).

(** The failures since the last time a connection was made. *)
Definition fails1 (n : nat) (e : jcop * jcout) : nat :=
  match e with
  | (JcConnected _, Some _) => O
  | (JcFailed _, Some _) | (JcLost _, Some _) => S n
  | _ => n
  end.
Definition fails (tr : jclog) : nat := fold_left fails1 tr O.
(** The wait after [n] failures and one more. *)
Definition backoff (f : jconf) (n : nat) : N := match n with O => jf_delay f | _ => N.min (jf_delay f * 2 ^ N.of_nat n) (jf_max f) end.
Definition failure (o : jcop) : Prop := match o with JcFailed _ | JcLost _ => True | _ => False end.

(** The attempts begun, with their URLs. *)
Definition tries1 (e : jcop * jcout) : list (nat * nat) :=
  match snd e with Some evs => flat_map (fun v => match v with EConnect k u => [(k, u)] | _ => [] end) evs | None => [] end.
Definition tries (tr : jclog) : list (nat * nat) := flat_map tries1 tr.
(** The URL that was set last. *)
Definition url_of (tr : jclog) : option nat :=
  fold_left (fun a e => match e with (JcUrl u, _) => u | _ => a end) tr None.
Definition was_closed (tr : jclog) : Prop := exists x, In (JcClose, x) tr.

Definition happened (tr : jclog) (o : jcop) : Prop := exists evs, In (o, Some evs) tr.
(** Attempt [k] has neither led to a connection nor failed. *)
Definition trying (tr : jclog) (k : nat) : Prop := (exists u, In (k, u) (tries tr)) /\ ~ happened tr (JcConnected k) /\ ~ happened tr (JcFailed k).
(** The connection of attempt [k] was made and has not ended; nor was it closed. *)
Definition shut (tr : jclog) (k : nat) : Prop := exists o evs, In (o, Some evs) tr /\ In (EShut k) evs.
Definition open (tr : jclog) (k : nat) : Prop :=
  happened tr (JcConnected k) /\ ~ happened tr (JcLost k) /\ ~ happened tr (JcGone k) /\ ~ shut tr k.

(** The URL [u] is given at the beginning and never changed. *)
Definition one_url (u : nat) (ops : list jcop) : Prop := exists ops', ops = JcUrl (Some u) :: ops' /\ forall u', ~ In (JcUrl u') ops'.
