(** C167, C168, C169: readers of a track of the JavaScript library. *)
From Coq Require Import NArith ZArith List Lia Bool Sorted.
From Coq Require Import Init.Byte.
From Verif.Model Require Import Base JsTrack.
From Verif.Spec Require Import JsTrackSpec.
From Verif.Proofs Require Import JsTrackP.
Import ListNotations.
Open Scope N_scope.

Theorem C167_reader_order : forall ops t tr r, jrun jt_init ops = (t, tr) ->
  StronglySorted before (places r tr) /\ Forall (fun p => In (fst p) (added tr)) (places r tr) /\
  (forall id k d, In ((id, k), d) (shown r tr) -> nth_error (written tr id) k = Some d) /\
  (forall id k d, In ((id, S k), d) (shown r tr) -> exists d', In ((id, k), d') (shown r tr)).
Proof. exact reader_order. Qed.
Print Assumptions C167_reader_order.

(** Two groups, the first one given up for the second. *)
Definition c167_ops : list jop :=
  [JAppend; JWrite 0 [x00]; JConsume; JNextFrame 0; JTickC 0 true; JTickC 0 true; JTickC 0 false; JWrite 0 [x01]; JAppend; JWrite 1 [x02];
   JNextFrame 0; JTickG 0; JTickC 0 true; JTickC 0 false; JNextFrame 0; JTickC 0 true].
Example C167_meets : shown 0 (snd (jrun jt_init c167_ops)) = [((0, 0%nat), [x00]); ((1, 0%nat), [x02])] /\
  added (snd (jrun jt_init c167_ops)) = [0; 1].
Proof. vm_compute. split; reflexivity. Qed.

Theorem C168_newest_partial : forall ops t tr r, jrun jt_init ops = (t, tr) ->
  unhurried r tr -> waits r tr = true -> rests t r -> (forall e, ~ In (JEnd e, JDone) tr) ->
  forall id, last (map Some (added tr)) None = Some id ->
  forall k, (k < length (written tr id))%nat -> exists d, In ((id, k), d) (shown r tr).
Proof. exact at_rest. Qed.
Print Assumptions C168_newest_partial.

Example C168_meets : let (t, tr) := jrun jt_init c167_ops in
  waits 0 tr = true /\ rests t 0 /\ last (map Some (added tr)) None = Some 1 /\ length (written tr 1) = 1%nat.
Proof. vm_compute. split; [reflexivity|]. split; [|split; reflexivity]. split; [reflexivity|]. split; [reflexivity|]. intros []; reflexivity. Qed.
Example C168_meets_unhurried : unhurried 0 (snd (jrun jt_init c167_ops)).
Proof.
  eapply (one_group _ _ (firstn 3 (snd (jrun jt_init c167_ops))) (skipn 3 (snd (jrun jt_init c167_ops)))).
  - vm_compute. reflexivity.
  - vm_compute. intuition discriminate.
  - vm_compute. lia.
Qed.

(** Two groups in one turn: the reader waits at the first while the second has a frame for it. *)
Theorem C168_refuted : exists ops t tr r id, jrun jt_init ops = (t, tr) /\
  waits r tr = true /\ rests t r /\ (forall e, ~ In (JEnd e, JDone) tr) /\
  last (map Some (added tr)) None = Some id /\ written tr id <> [] /\ forall k d, ~ In ((id, k), d) (shown r tr).
Proof.
  exists [JConsume; JNextFrame 0; JTickC 0 true; JAppend; JAppend; JWrite 1 [x07]; JTickG 0; JTickC 0 true].
  eexists. eexists. exists O, 1. split; [vm_compute; reflexivity|].
  split; [vm_compute; reflexivity|]. split.
  { split; [vm_compute; reflexivity|]. split; [vm_compute; reflexivity|]. intros []; vm_compute; reflexivity. }
  split; [intros e; vm_compute; intuition discriminate|].
  split; [vm_compute; reflexivity|]. split; [vm_compute; discriminate|]. intros k d. vm_compute. intuition.
Qed.
Print Assumptions C168_refuted.

Theorem C169_end_partial : forall ops t tr r a b c, jrun jt_init ops = (t, tr) -> tr = a ++ (JTickC r b, JOver) :: c ->
  (exists e, In (JEnd e, JDone) a) /\
  ((forall out, ~ In (JNextGroup r, out) a) -> forall id i, last (map Some (added a)) None = Some id -> In (id, i) (places r a) ->
     forall k, (k < length (written a id))%nat -> exists d, In ((id, k), d) (shown r a)).
Proof. exact told_over. Qed.
Print Assumptions C169_end_partial.

(** A group of two frames, read to its end, then the end. *)
Definition c169_ops : list jop :=
  [JAppend; JWrite 0 [x00]; JConsume; JNextFrame 0; JTickC 0 true; JTickC 0 true; JTickC 0 false; JWrite 0 [x01]; JEndGroup 0 JClosed;
   JEnd JClosed; JNextFrame 0; JTickF 0; JTickG 0; JTickG 0; JTickC 0 false; JNextFrame 0; JTickC 0 true; JTickC 0 true].
Example C169_meets : last (snd (jrun jt_init c169_ops)) (JAppend, JIdle) = (JTickC 0 true, JOver) /\
  places 0 (snd (jrun jt_init c169_ops)) = [(0, 1%nat); (0, 2%nat)] /\
  (forall out, ~ In (JNextGroup 0, out) (snd (jrun jt_init c169_ops))).
Proof. vm_compute. split; [reflexivity|]. split; [reflexivity|]. intros out. intuition discriminate. Qed.

(** A reader that is one group behind when the track ends is told the end without the newest group. *)
Theorem C169_refuted : exists ops t tr r b id, jrun jt_init ops = (t, tr ++ [(JTickC r b, JOver)]) /\
  (forall out, ~ In (JLeave r true, out) tr /\ ~ In (JLeave r false, out) tr) /\ unhurried r tr /\
  (forall out, ~ In (JNextGroup r, out) tr) /\ shown r tr <> [] /\
  last (map Some (added tr)) None = Some id /\ written tr id <> [] /\ forall k d, ~ In ((id, k), d) (shown r tr).
Proof.
  exists [JAppend; JWrite 0 [x00]; JConsume; JAppend; JWrite 1 [x07]; JEndGroup 0 JClosed; JEndGroup 1 JClosed; JEnd JClosed;
          JNextFrame 0; JTickC 0 true; JTickC 0 true; JTickC 0 false; JNextFrame 0; JTickG 0; JTickC 0 false; JTickC 0 false].
  eexists. exists (removelast (snd (jrun jt_init
         [JAppend; JWrite 0 [x00]; JConsume; JAppend; JWrite 1 [x07]; JEndGroup 0 JClosed; JEndGroup 1 JClosed; JEnd JClosed;
          JNextFrame 0; JTickC 0 true; JTickC 0 true; JTickC 0 false; JNextFrame 0; JTickG 0; JTickC 0 false; JTickC 0 false]))).
  exists O, false, 1. split; [vm_compute; reflexivity|].
  split; [intros out; vm_compute; intuition discriminate|].
  split.
  { match goal with |- unhurried _ ?l => apply (one_group 0 l (firstn 3 l) (skipn 3 l)) end.
    - vm_compute. reflexivity.
    - vm_compute. intuition discriminate.
    - vm_compute. lia. }
  split; [intros out; vm_compute; intuition discriminate|].
  split; [vm_compute; discriminate|]. split; [vm_compute; reflexivity|]. split; [vm_compute; discriminate|].
  intros k d. vm_compute. intuition discriminate.
Qed.
Print Assumptions C169_refuted.

(** Closing a reader while a frame is there for its [nextFrame]: the call throws. *)
Theorem C169_leave_refuted : exists ops t tr r b, jrun jt_init ops = (t, tr ++ [(JLeave r b, JFailed)]) /\ waits r tr = true /\
  (forall e, ~ In (JEnd e, JDone) tr) /\ forall id e, ~ In (JEndGroup id e, JDone) tr.
Proof.
  exists [JAppend; JConsume; JNextFrame 0; JTickC 0 true; JTickC 0 true; JWrite 0 [x00]; JTickF 0; JLeave 0 true].
  eexists. exists (removelast (snd (jrun jt_init
    [JAppend; JConsume; JNextFrame 0; JTickC 0 true; JTickC 0 true; JWrite 0 [x00]; JTickF 0; JLeave 0 true]))).
  exists O, true. split; [vm_compute; reflexivity|]. split; [vm_compute; reflexivity|].
  split; intros; vm_compute; intuition discriminate.
Qed.
Print Assumptions C169_leave_refuted.
