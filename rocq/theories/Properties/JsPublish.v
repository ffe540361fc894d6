(** C170, C171, C172: what an endpoint of the JavaScript library publishes, and what its peer hears of it. *)
From Coq Require Import NArith List Bool Lia.
From Verif.Model Require Import Base JsPublish.
From Verif.Spec Require Import JsPublishSpec.
From Verif.Proofs Require Import JsPublishP.
Import ListNotations.
Open Scope N_scope.

(** ** C170: following *)
Theorem C170_followed : forall ops s tr f pre, prun jp_init ops = (s, tr) -> In (PFollow pre, PFollower f) tr ->
  (exists l rest, said tr = l ++ rest /\ under pre l (told f tr)) /\
  (snd (pstep s (PNext f)) = PIdle -> under pre (said tr) (told f tr)).
Proof. exact followed. Qed.
Print Assumptions C170_followed.

(** Two broadcasts "ab" and "c", one taken back; a follower of "a" that came late. *)
Definition c170_ops : list pop :=
  [PPublish [97; 98] 0; PPublish [99] 1; PClose 0; PFinish 0; PFollow [97]; PNext 0; PNext 0; PPublish [97; 98] 2; PNext 0; PNext 0].
Example C170_meets : let (s, tr) := prun jp_init c170_ops in
  In (PFollow [97], PFollower 0) tr /\ told 0 tr = [([98], true); ([98], false); ([98], true)] /\ snd (pstep s (PNext 0)) = PIdle.
Proof. vm_compute. split; [tauto|]. split; reflexivity. Qed.

(** ** C171: what is announced is what is there *)
(** The last word about a path and what a subscriber finds there always agree, and it is what was published last. *)
Theorem C171_agree : forall ops s tr p, prun jp_init ops = (s, tr) ->
  snd (pstep s (PAsk p)) = match standing p tr with Some b => PFound b | None => PNotFound end /\
  last_word p (said tr) = match standing p tr with Some _ => true | None => false end.
Proof. exact asked. Qed.
Print Assumptions C171_agree.

(** Nothing that is closed is found once all has settled. *)
Theorem C171_open : forall ops s tr p b, prun jp_init ops = (s, tr) -> settled_down s ->
  standing p tr = Some b -> ~ In (PClose b, PDone) tr.
Proof. exact calm_live. Qed.
Print Assumptions C171_open.

(** A path published in order: what is published and not closed is found. *)
Theorem C171_found_partial : forall ops s tr p b out, prun jp_init ops = (s, tr) -> orderly tr ->
  In (PPublish p b, out) tr -> ~ In (PClose b, PDone) tr -> standing p tr = Some b.
Proof. exact live_found. Qed.
Print Assumptions C171_found_partial.

Lemma c170_orderly : orderly (snd (prun jp_init c170_ops)).
Proof.
  intros a p b out c E. vm_compute in E.
  do 10 (destruct a as [|? a]; cbn in E; [injection E as <- <- <- E || discriminate E; reflexivity | injection E as <- E]).
  destruct a; discriminate.
Qed.
Example C171_meets : let (s, tr) := prun jp_init c170_ops in
  In (PPublish [97; 98] 2, PTask 2) tr /\ ~ In (PClose 2, PDone) tr /\ settled_down s /\ standing [97; 98] tr = Some 2%nat.
Proof.
  vm_compute. split; [tauto|]. split; [intuition discriminate|]. split; [|reflexivity].
  intros [|[|[|n]]]; try reflexivity. destruct n; reflexivity.
Qed.

(** False: a broadcast that took the place of another disappears when that one is closed, though it is open and announced as gone. *)
Theorem C171_refuted : exists ops s tr p b out, prun jp_init ops = (s, tr) /\ settled_down s /\
  In (PPublish p b, out) tr /\ ~ In (PClose b, PDone) tr /\ (forall c o2, In (PPublish p c, o2) tr -> (c <= b)%nat) /\
  snd (pstep s (PAsk p)) = PNotFound /\ last_word p (said tr) = false.
Proof.
  exists [PPublish [97] 0; PClose 0; PPublish [97] 1; PFinish 0]. eexists. eexists. exists [97], 1%nat, (PTask 1).
  split; [vm_compute; reflexivity|]. split; [intros [|[|[|n]]]; vm_compute; reflexivity|].
  split; [vm_compute; tauto|]. split; [vm_compute; intuition discriminate|].
  split; [|split; vm_compute; reflexivity]. intros c o2 H. cbn in H.
  repeat match goal with H : _ \/ _ |- _ => destruct H as [H|H] end; try (injection H; lia); try discriminate; destruct H.
Qed.
Print Assumptions C171_refuted.

(** ** C172: announced and taken back in turn *)
Theorem C172_in_turn_partial : forall ops s tr p, prun jp_init ops = (s, tr) -> orderly tr -> in_turn true (about p (said tr)).
Proof. exact announced_in_turn. Qed.
Print Assumptions C172_in_turn_partial.
Example C172_meets : orderly (snd (prun jp_init c170_ops)) /\ about [97; 98] (said (snd (prun jp_init c170_ops))) = [true; false; true].
Proof. split; [exact c170_orderly|reflexivity]. Qed.

(** False: announced twice. *)
Theorem C172_refuted : exists ops s tr p, prun jp_init ops = (s, tr) /\ ~ in_turn true (about p (said tr)).
Proof.
  exists [PPublish [97] 0; PPublish [97] 1]. eexists. eexists. exists [97]. split; [vm_compute; reflexivity|].
  vm_compute. intros H. inversion H as [|b l H1]; subst. inversion H1.
Qed.
Print Assumptions C172_refuted.
