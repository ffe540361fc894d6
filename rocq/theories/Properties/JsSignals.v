From Coq Require Import Arith List Bool Lia.
From Verif.Model Require Import JsSignals.
From Verif.Spec Require Import JsSignalsSpec.
From Verif.Proofs Require Import JsSignalsP.
Import ListNotations.

(** * C216: what an effect or memo holds

    The claim: of each effect and each memo, at most one run holds anything.  True of effects; false of every memo. *)
Theorem C216_partial : forall ops, let l := snd (s_run r_init ops) in forall k n m, ~ In (EMemo k) l -> held l k n -> held l k m -> n = m.
Proof. exact effect_one. Qed.
Print Assumptions C216_partial.
Theorem C216_refuted : exists ops, let l := snd (s_run r_init ops) in exists k n m, held l k n /\ held l k m /\ n <> m.
Proof. exists [SMemo]. cbn zeta. exists 0, 0, 1. unfold held. cbn. intuition discriminate. Qed.
Print Assumptions C216_refuted.

(** Until it is closed, the last run holds what it took, and what is held is of a last run or of the first run of a memo; of a memo, both are. *)
Theorem C216_last : forall ops, let l := snd (s_run r_init ops) in ~ In EClosed l -> forall k m, In (EGot k m) l -> exists n, last_run l k n /\ held l k n.
Proof. exact last_held. Qed.
Print Assumptions C216_last.
Theorem C216_exact : forall ops, let l := snd (s_run r_init ops) in ~ In EClosed l -> forall k n, held l k n -> last_run l k n \/ In (EMemo k) l /\ first_run l k n.
Proof. exact held_what. Qed.
Print Assumptions C216_exact.
Theorem C216_memo_exact : forall ops, let l := snd (s_run r_init ops) in ~ In EClosed l ->
  forall k, In (EMemo k) l -> exists m n, m <> n /\ first_run l k m /\ held l k m /\ last_run l k n /\ held l k n.
Proof. exact memo_both. Qed.
Print Assumptions C216_memo_exact.

Definition some : list sop := [SEffect; SMemo; SChange 0; SChange 1].
Example C216_some : let l := snd (s_run r_init some) in
  ~ In (EMemo 0) l /\ ~ In EClosed l /\ held l 0 3 /\ ~ held l 0 0 /\ held l 1 1 /\ ~ held l 1 2 /\ held l 1 4.
Proof. unfold held. cbn. intuition discriminate. Qed.

(** * C217: once closed, nothing is held *)
Theorem C217_closed : forall ops, let l := snd (s_run r_init ops) in In EClosed l -> forall k n, ~ held l k n.
Proof. exact none_left. Qed.
Print Assumptions C217_closed.
Example C217_some : let l := snd (s_run r_init (some ++ [SClose])) in In EClosed l /\ In (EGot 1 1) l /\ In (EGot 1 4) l.
Proof. cbn. tauto. Qed.
