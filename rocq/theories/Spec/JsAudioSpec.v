(** What is seen of an audio player, from what happened only. *)
From Coq Require Import ZArith NArith List.
From Verif.Model Require Import JsAudio.
Import ListNotations.

Notation alog := (list aev).

(** No sample was ever started at a time equal to its timestamp. *)
Definition no_zero (l : alog) : Prop := forall i no ts w c, In (EPlay i no ts w c) l -> w <> ts.
Definition started (l : alog) (i : nat) : Prop := exists no ts w c, In (EPlay i no ts w c) l.
Definition ended (l : alog) (i : nat) : Prop := exists c, In (EEnded i c) l.
(** Nodes end in the order in which they were started. *)
Definition in_order (l : alog) : Prop := forall a i c b, l = a ++ EEnded i c :: b -> forall j, j < i -> started a j -> ended a j.
Definition contexts (l : alog) : list nat := flat_map (fun e => match e with EContext c => [c] | _ => [] end) l.
Definition enabled_once (l : alog) : Prop := forall a b, l = a ++ EOn :: b -> ~ In EOn a.
Definition one_rate (l : alog) : Prop := forall n1 t1 c1 m1 r1 n2 t2 c2 m2 r2,
  In (ESample n1 t1 c1 m1 r1) l -> In (ESample n2 t2 c2 m2 r2) l -> r1 = r2.
