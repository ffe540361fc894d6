(** C97, C98: rooms. *)
From Coq Require Import NArith List Bool Lia.
From Coq Require Import Init.Byte Strings.Byte.
From Verif.Model Require Import Base Map OriginSys Room.
From Verif.Spec Require Import RoomSpec.
From Verif.Proofs Require Import RoomP.
Import ListNotations.

Definition lobby : bytes := ["a"; "/"]%byte.
Definition alice : bytes := ["x"%byte].
Definition bob : bytes := ["y"%byte].
(** Alice publishes and watches; Bob comes, the relay also tells Alice of their own broadcast. *)
Definition visit : list rop :=
  [RPublish alice 0; RWatch; RAnnounce (lobby ++ alice) 0; RAnnounce (lobby ++ bob) 1; RAnnounce (bob ++ bob) 2; RWatch; RWatch;
   REnd; RWatch].
Example visit_trace : map snd (snd (rrun (room_new lobby) visit)) =
  [RAt (lobby ++ alice); RPending; RUnit; RUnit; RUnit; RFound bob 1; RPending; RUnit; RNone].
Proof. reflexivity. Qed.

(** ** C97: a member of a room is shown the broadcasts of the others, and not their own *)
(** Every broadcast of the room that is not called like one of the member's is shown, once and in order; when the
    member has to wait, or the room is over, none is left. *)
Theorem C97_others_partial : forall path ops s tr, rrun (room_new path) ops = (s, tr) ->
  (exists rest, others tr (announced path tr) = others tr (shown tr) ++ rest) /\
  (snd (rstep s RWatch) = RPending \/ snd (rstep s RWatch) = RNone -> others tr (announced path tr) = others tr (shown tr)).
Proof. exact others_shown. Qed.
Print Assumptions C97_others_partial.

(** The room is over only when the session is, and then for good. *)
Theorem C97_over : forall path ops s tr, rrun (room_new path) ops = (s, tr) ->
  (snd (rstep s RWatch) = RNone -> exists x, In (REnd, x) tr) /\ (snd (rstep s RWatch) = RPending -> forall x, ~ In (REnd, x) tr).
Proof. exact watch_over. Qed.
Print Assumptions C97_over.
Example C97_over_meets : snd (rstep (fst (rrun (room_new lobby) (firstn 7 visit))) RWatch) = RPending /\
  snd (rstep (fst (rrun (room_new lobby) visit)) RWatch) = RNone.
Proof. split; reflexivity. Qed.

(** While all broadcasts of the member by some name are open, nothing of that name is shown. *)
Theorem C97_own_partial : forall path ops s tr n b, rrun (room_new path) ops = (s, tr) ->
  In n (own_names tr) -> (forall c, mine tr n c -> ~ shut tr c) -> snd (rstep s RWatch) <> RFound n b.
Proof. exact hidden_while_open. Qed.
Print Assumptions C97_own_partial.

Example C97_meets : let tr := snd (rrun (room_new lobby) visit) in
  own_names tr = [alice] /\ (forall c, ~ shut tr c) /\ others tr (announced lobby tr) = [(bob, 1)] /\ shown tr = [(bob, 1)].
Proof.
  cbv zeta. split; [reflexivity|]. split; [|split; reflexivity].
  intros c [x H]. cbn in H. repeat (destruct H as [H|H]; [discriminate H|]). destruct H.
Qed.

(** In general: a member is not shown what they published. *)
Definition C97_own : Prop := forall path ops s tr n b, rrun (room_new path) ops = (s, tr) ->
  mine tr n b -> snd (rstep s RWatch) <> RFound n b.
(** False: a broadcast that was replaced by another of the same name takes the name with it when it is closed, and the
    open one is shown. *)
Theorem C97_replaced_refuted : exists path ops s tr n b, rrun (room_new path) ops = (s, tr) /\
  mine tr n b /\ ~ shut tr b /\ snd (rstep s RWatch) = RFound n b.
Proof.
  exists lobby, [RPublish alice 0; RPublish alice 1; RClose 0; RTask 0; RAnnounce (lobby ++ alice) 1]. do 2 eexists. exists alice, 1.
  split; [apply surjective_pairing|]. cbn [rrun fst snd]. split; [|split].
  - exists (RAt (lobby ++ alice)). vm_compute. auto.
  - intros [x H]. cbn in H. repeat (destruct H as [H|H]; [discriminate H|]). destruct H.
  - reflexivity.
Qed.
Print Assumptions C97_replaced_refuted.
(** False: the announcement of a broadcast that was closed before the member looked is shown. *)
Theorem C97_closed_refuted : exists path ops s tr n b, rrun (room_new path) ops = (s, tr) /\
  mine tr n b /\ (forall c, mine tr n c -> c = b) /\ snd (rstep s RWatch) = RFound n b.
Proof.
  exists lobby, [RPublish alice 0; RAnnounce (lobby ++ alice) 0; RClose 0; RTask 0]. do 2 eexists. exists alice, 0.
  split; [apply surjective_pairing|]. cbn [rrun fst snd]. split; [|split].
  - exists (RAt (lobby ++ alice)). vm_compute. auto.
  - intros c [x H]. cbn in H. destruct H as [H|H]; [injection H; auto|]. repeat (destruct H as [H|H]; [discriminate H|]). destruct H.
  - reflexivity.
Qed.
Print Assumptions C97_closed_refuted.

(** ** C98: what is published in one room is not shown in another *)
(** A broadcast is published at the path of the room followed by its name, and shown where such a path begins with
    that of the room. *)
Theorem C98_published : forall path ops s tr n b, rrun (room_new path) ops = (s, tr) -> snd (rstep s (RPublish n b)) = RAt (path ++ n).
Proof. exact publish_at. Qed.
Print Assumptions C98_published.
Theorem C98_shown : forall path ops s tr n b, rrun (room_new path) ops = (s, tr) ->
  snd (rstep s RWatch) = RFound n b -> exists x, In (RAnnounce (path ++ n) b, x) tr.
Proof. exact shown_real. Qed.
Print Assumptions C98_shown.

(** Here [b] is announced only where members of room [q] can publish. *)
Definition C98_apart : Prop := forall p q ops s tr n b, p <> q -> rrun (room_new p) ops = (s, tr) ->
  (forall m x, In (RAnnounce m b, x) tr -> exists k, m = q ++ k) -> snd (rstep s RWatch) <> RFound n b.
(** True if the rooms are named by one component and a slash. *)
Theorem C98_apart_partial : forall p q ops s tr n b, whole p -> whole q -> p <> q -> rrun (room_new p) ops = (s, tr) ->
  (forall m x, In (RAnnounce m b, x) tr -> exists k, m = q ++ k) -> snd (rstep s RWatch) <> RFound n b.
Proof.
  intros p q ops s tr n b P Q N E H W. destruct (shown_real _ _ _ _ _ _ E W) as [x A]. destruct (H _ _ A) as [k K].
  apply N. exact (whole_apart _ _ _ _ P Q K).
Qed.
Print Assumptions C98_apart_partial.

(** False in general: in room [a] one sees what happens in room [ab]. *)
Theorem C98_apart_refuted : exists p q ops s tr n b, p <> q /\ rrun (room_new p) ops = (s, tr) /\
  (forall m x, In (RAnnounce m b, x) tr -> exists k, m = q ++ k) /\ snd (rstep s RWatch) = RFound n b.
Proof.
  exists ["a"%byte], ["a"; "b"]%byte, [RAnnounce ["a"; "b"; "x"]%byte 7]. do 2 eexists. exists ["b"; "x"]%byte, 7.
  split; [discriminate|]. split; [apply surjective_pairing|]. split; [|reflexivity].
  intros m x H. cbn in H. destruct H as [H|[]]. injection H as <- _. exists ["x"%byte]. reflexivity.
Qed.
Print Assumptions C98_apart_refuted.

Example C98_meets : whole lobby /\ whole ["b"; "/"]%byte /\ lobby <> ["b"; "/"]%byte /\
  snd (rstep (fst (rrun (room_new lobby) (firstn 5 visit))) RWatch) = RFound bob 1.
Proof.
  split; [exists ["a"%byte]; split; [reflexivity|intros [H|[]]; discriminate]|].
  split; [exists ["b"%byte]; split; [reflexivity|intros [H|[]]; discriminate]|]. split; [discriminate|reflexivity].
Qed.
