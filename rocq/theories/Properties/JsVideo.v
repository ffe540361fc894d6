(** C183-C188: the video player of a web page. *)
From Coq Require Import ZArith List Bool Arith Lia.
From Verif.Model Require Import JsVideo.
From Verif.Spec Require Import JsVideoSpec.
From Verif.Proofs Require Import JsVideoP.
Import ListNotations.
Open Scope nat_scope.

(** Frames 10 apart; the last one asked for is late. *)
Definition ops1 : list vop :=
  [VEffect true; VOutput 0 10; VOutput 0 20; VFrame 5; VOutput 0 30; VFrame 14; VFrame 40; VOutput 0 40; VOutput 0 50; VClose].

(** ** C183: every frame is given back once *)
(** Frames are given back in the order in which they came, each at most once, and at most two are kept. *)
Theorem C183_given_back : forall ops s l, v_run v_init ops = (s, l) ->
  exists rest, outs l = given_back l ++ rest /\ length rest <= 2 /\ NoDup (outs l).
Proof. exact fifo. Qed.
Print Assumptions C183_given_back.
(** What is shown has come out of a decoder and was not given back; at most one later frame had come out by then. *)
Theorem C183_shown : forall ops s a now f lag b, v_run v_init ops = (s, a ++ EShow now f lag :: b) ->
  exists rest, outs a = given_back a ++ f :: rest /\ length rest <= 1.
Proof. exact shown_live. Qed.
Print Assumptions C183_shown.
(** Asking for a frame always ends. *)
Theorem C183_answers : forall ops s l, v_run v_init ops = (s, l) -> ~ In EHang l.
Proof. exact answers. Qed.
Print Assumptions C183_answers.
Example C183_meets : snd (v_run v_init ops1) =
  [EStart 0; EOut (VF 0 0 10); EOut (VF 1 0 20); EShow 5 (VF 0 0 10) 0; EOut (VF 2 0 30); EDrop (VF 0 0 10); EShow 14 (VF 1 0 20) 0;
   ESkip 40 (VF 1 0 20); EShow 40 (VF 2 0 30) 16; EOut (VF 3 0 40); EOut (VF 4 0 50); EDrop (VF 2 0 30);
   EDrop (VF 3 0 40); EDrop (VF 4 0 50); EEnd].
Proof. vm_compute. reflexivity. Qed.

(** ** C184: the picture never goes back *)
Theorem C184_order : forall ops s l a n1 f1 l1 b n2 f2 l2 c, v_run v_init ops = (s, l) -> l = a ++ EShow n1 f1 l1 :: b ++ EShow n2 f2 l2 :: c ->
  exists i j, i <= j /\ nth_error (outs l) i = Some f1 /\ nth_error (outs l) j = Some f2.
Proof. exact order. Qed.
Print Assumptions C184_order.
Example C184_meets : exists a b c, snd (v_run v_init ops1) = a ++ EShow 5 (VF 0 0 10) 0 :: b ++ EShow 40 (VF 2 0 30) 16 :: c.
Proof. exists (firstn 3 (snd (v_run v_init ops1))), (firstn 4 (skipn 4 (snd (v_run v_init ops1)))), (skipn 9 (snd (v_run v_init ops1))). vm_compute. reflexivity. Qed.

(** ** C185: the lag is the distance to the earliest frame so far, and only frames that are too late are passed over *)
Theorem C185_lag_partial : forall ops s a now f lag b, v_run v_init ops = (s, a ++ EShow now f lag :: b) -> ~ In 0%Z (seen a) ->
  late (seen a) (f_ts f - now) lag.
Proof. exact lag_is. Qed.
Print Assumptions C185_lag_partial.
Theorem C185_skip_partial : forall ops s a now f b, v_run v_init ops = (s, a ++ ESkip now f :: b) -> ~ In 0%Z (seen a) ->
  exists n d, outs a = given_back a ++ [f; n] /\ late (seen a) (f_ts f - now) d /\ (f_ts n - f_ts f < d)%Z.
Proof. exact skips. Qed.
Print Assumptions C185_skip_partial.
(** Without the hypothesis: the lag is not negative, and a frame that is shown while the next one is there is not too late by that lag. *)
Theorem C185_not_negative : forall ops s a now f lag b, v_run v_init ops = (s, a ++ EShow now f lag :: b) -> (0 <= lag)%Z.
Proof. exact lag_pos. Qed.
Print Assumptions C185_not_negative.
Theorem C185_in_time : forall ops s a now f lag b n, v_run v_init ops = (s, a ++ EShow now f lag :: b) -> outs a = given_back a ++ [f; n] ->
  (lag <= f_ts n - f_ts f)%Z.
Proof. exact waits. Qed.
Print Assumptions C185_in_time.
Example C185_meets : seen (firstn 7 (snd (v_run v_init ops1))) = [5; 6]%Z /\ skipn 7 (snd (v_run v_init ops1)) =
  ESkip 40 (VF 1 0 20) :: EShow 40 (VF 2 0 30) 16 :: skipn 9 (snd (v_run v_init ops1)).
Proof. vm_compute. auto. Qed.
(** False: a reference of zero counts as none.  The frame is 5 late, the lag is 0. *)
Theorem C185_refuted : exists ops s a now f lag b, v_run v_init ops = (s, a ++ EShow now f lag :: b) /\
  ~ late (seen a) (f_ts f - now) lag /\ late (seen a) (f_ts f - now) 5.
Proof.
  exists [VEffect true; VOutput 0 10; VFrame 10; VFrame 15]. eexists. exists [EStart 0; EOut (VF 0 0 10); EShow 10 (VF 0 0 10) 0].
  exists 15%Z, (VF 0 0 10), 0%Z, []. split; [vm_compute; reflexivity|]. unfold late, largest. cbn. split.
  - intros [_ H]. specialize (H 0%Z (or_introl eq_refl)). lia.
  - split; [auto|]. intros x [<-|[<-|[]]]; lia.
Qed.
Print Assumptions C185_refuted.

(** ** C186: the lag of a track does not depend on the tracks before *)
Theorem C186_partial : forall ops s a now f lag b, v_run v_init ops = (s, a ++ EShow now f lag :: b) -> ~ In 0%Z (seen a) ->
  all_from (f_src f) (outs a) -> late (seen_of (f_src f) a) (f_ts f - now) lag.
Proof. exact lag_own. Qed.
Print Assumptions C186_partial.
(** With more than one track it is never too small. *)
Theorem C186_least_partial : forall ops s a now f lag b d, v_run v_init ops = (s, a ++ EShow now f lag :: b) -> ~ In 0%Z (seen a) ->
  late (seen_of (f_src f) a) (f_ts f - now) d -> (d <= lag)%Z.
Proof. exact lag_least. Qed.
Print Assumptions C186_least_partial.
Example C186_meets : let a := firstn 8 (snd (v_run v_init ops1)) in
  all_from 0 (outs a) /\ ~ In 0%Z (seen a) /\ skipn 8 (snd (v_run v_init ops1)) = EShow 40 (VF 2 0 30) 16 :: skipn 9 (snd (v_run v_init ops1)).
Proof. split; [|split; [|vm_compute; reflexivity]]. - intros f H. vm_compute in H. intuition (subst; reflexivity). - vm_compute. intuition discriminate. Qed.
(** False: the broadcast is published anew with a clock that starts at zero.  Every frame counts as late by the difference of the clocks. *)
Theorem C186_refuted : exists ops s a now f lag b, v_run v_init ops = (s, a ++ EShow now f lag :: b) /\ ~ In 0%Z (seen a) /\
  late (seen_of (f_src f) a) (f_ts f - now) 0 /\ lag = 9000000%Z.
Proof.
  exists [VEffect true; VOutput 0 9000001; VFrame 1000; VEffect true; VOutput 1 17; VFrame 1016]. eexists.
  exists [EStart 0; EOut (VF 0 0 9000001); EShow 1000 (VF 0 0 9000001) 0; EStart 1; EOut (VF 1 1 17); ESkip 1016 (VF 0 0 9000001)].
  exists 1016%Z, (VF 1 1 17), 9000000%Z, []. split; [vm_compute; reflexivity|]. split; [|split; [|reflexivity]].
  - vm_compute. intuition discriminate.
  - unfold late, largest. cbn. split; [auto|]. intros x [<-|[]]; lia.
Qed.
Print Assumptions C186_refuted.

(** ** C187: the track that is selected is the one that is shown *)
(** If the decoders made before give no more frames: from the second frame on. *)
Theorem C187_partial : forall ops s a k b now f lag c, v_run v_init ops = (s, a ++ EStart k :: b ++ EShow now f lag :: c) ->
  all_from k (outs b) -> 2 <= length (outs b) -> f_src f = k.
Proof. exact switch. Qed.
Print Assumptions C187_partial.
Example C187_meets : exists a b, snd (v_run v_init [VEffect true; VOutput 0 10; VOutput 0 20; VEffect true; VOutput 1 30; VOutput 1 40; VFrame 5]) =
  a ++ EStart 1 :: b ++ EShow 5 (VF 2 1 30) 0 :: [] /\ all_from 1 (outs b) /\ length (outs b) = 2.
Proof.
  exists [EStart 0; EOut (VF 0 0 10); EOut (VF 1 0 20)], [EOut (VF 2 1 30); EDrop (VF 0 0 10); EOut (VF 3 1 40); EDrop (VF 1 0 20)].
  split; [vm_compute; reflexivity|]. split; [|reflexivity]. intros f H. cbn in H. intuition (subst; reflexivity).
Qed.
(** False: the decoder of the track before goes on, and its frames are shown among those of the new one. *)
Theorem C187_refuted : exists ops s a k b now f lag c, v_run v_init ops = (s, a ++ EStart k :: b ++ EShow now f lag :: c) /\
  length (outs b) = 5 /\ length (filter (fun g => Nat.eqb (f_src g) k) (outs b)) = 4 /\ In f (outs b) /\ f_src f <> k.
Proof.
  exists [VEffect true; VOutput 0 10; VEffect true; VOutput 1 30; VOutput 1 40; VOutput 1 50; VOutput 0 20; VOutput 1 60; VFrame 5]. eexists.
  exists [EStart 0; EOut (VF 0 0 10)], 1, [EOut (VF 1 1 30); EOut (VF 2 1 40); EDrop (VF 0 0 10); EOut (VF 3 1 50); EDrop (VF 1 1 30);
    EOut (VF 4 0 20); EDrop (VF 2 1 40); EOut (VF 5 1 60); EDrop (VF 3 1 50)].
  exists 5%Z, (VF 4 0 20), 0%Z, []. split; [vm_compute; reflexivity|]. cbn. repeat split; auto.
Qed.
Print Assumptions C187_refuted.
(** False too when there is nothing to play any more: the player is disabled, and goes on. *)
Theorem C187_stopped_refuted : exists ops s a b now f lag c, v_run v_init ops = (s, a ++ EStop :: b ++ EShow now f lag :: c) /\
  (forall k, ~ In (EStart k) b) /\ In f (outs b).
Proof.
  exists [VEffect true; VOutput 0 10; VOutput 0 20; VEffect false; VOutput 0 30; VOutput 0 40; VFrame 5]. eexists.
  exists [EStart 0; EOut (VF 0 0 10); EOut (VF 1 0 20)], [EOut (VF 2 0 30); EDrop (VF 0 0 10); EOut (VF 3 0 40); EDrop (VF 1 0 20)].
  exists 5%Z, (VF 2 0 30), 0%Z, []. split; [vm_compute; reflexivity|]. cbn. split; [|auto]. intros k H. intuition discriminate.
Qed.
Print Assumptions C187_stopped_refuted.

(** ** C188: after close nothing is shown and nothing is kept *)
(** Everything that had come was given back; and nothing is shown as long as no decoder gives another frame. *)
Theorem C188_gives_back : forall ops s a b, v_run v_init ops = (s, a ++ EEnd :: b) -> outs a = given_back a.
Proof. exact close_gives_back. Qed.
Print Assumptions C188_gives_back.
Theorem C188_partial : forall ops s a b now f lag, v_run v_init ops = (s, a ++ EEnd :: b) -> outs b = [] -> ~ In (EShow now f lag) b.
Proof. exact close_shows_none. Qed.
Print Assumptions C188_partial.
Example C188_meets : exists a, snd (v_run v_init (ops1 ++ [VEffect true; VOutput 1 60; VFrame 50])) = a ++ EEnd :: [EEmpty 50] /\ length (outs a) = 5.
Proof. exists (firstn 14 (snd (v_run v_init ops1))). vm_compute. auto. Qed.
(** False: the decoders go on after close. *)
Theorem C188_refuted : exists ops s a b now f lag, v_run v_init ops = (s, a ++ EEnd :: b ++ [EShow now f lag]) /\ In f (outs b) /\
  (forall k, ~ In (EStart k) b) /\ ~ In f (given_back (a ++ EEnd :: b)).
Proof.
  exists [VEffect true; VOutput 0 10; VClose; VOutput 0 20; VFrame 5]. eexists.
  exists [EStart 0; EOut (VF 0 0 10); EDrop (VF 0 0 10)], [EOut (VF 1 0 20)], 5%Z, (VF 1 0 20), 0%Z.
  split; [vm_compute; reflexivity|]. cbn. split; [auto|]. split; [intros k H|intros H]; intuition discriminate.
Qed.
Print Assumptions C188_refuted.
