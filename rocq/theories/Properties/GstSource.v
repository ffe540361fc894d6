(** Properties C108-C110: the GStreamer source element. *)
From Coq Require Import NArith Arith List Lia Bool.
From Coq Require Import Init.Byte Strings.Byte.
From Verif.Model Require Import Base Map FrameSys Media Codec GstSource.
From Verif.Spec Require Import GstSourceSpec.
From Verif.Proofs Require Import GstSourceP.
Import ListNotations.
Open Scope N_scope.

(** * C108 *)
(** What the comment of L226 and L319 promises: times relative to a common origin. *)
Definition C108_relative : Prop := forall vs ops s tr k v, grun (src_new vs) ops = (s, tr) -> nth_error vs k = Some v ->
  fits (frames k tr) -> exists o, Forall2 (shifted v o) (frames k tr) (buffers k tr).

(** Each frame is pushed once, in order, with its data and flag; all but the first at the time since the first one.
    Missing: the first. *)
Theorem C108_later_partial : forall vs ops s tr k v, grun (src_new vs) ops = (s, tr) -> nth_error vs k = Some v ->
  fits (frames k tr) ->
  match frames k tr, buffers k tr with
  | [], [] => True
  | f :: fs, b :: bs => shifted v 0 f b /\ Forall2 (shifted v (mf_ts f)) fs bs
  | _, _ => False
  end.
Proof.
  intros vs ops s tr k v R K F. destruct (tasks_run vs ops s tr R k v K) as (t & _ & _ & M). unfold made in M.
  destruct (frames k tr) as [|f fs]; [destruct M as [-> _]; exact I|]. destruct M as (_ & b & bs & -> & -> & H).
  inversion F as [|? ? F1 F2]; subst. split.
  - split; [|split; reflexivity]. cbn. rewrite N.mod_small by exact F1. lia.
  - clear R F K. revert F2. induction H as [|f' b' fs' bs' [L ->] _ IH]; intros F2; constructor.
    + inversion F2; subst. split; [|split; reflexivity]. cbn. rewrite N.mod_small by lia. lia.
    + apply IH. inversion F2; assumption.
Qed.
Print Assumptions C108_later_partial.

(** They have a common origin exactly if there is only one frame, or the first is at time zero. *)
Theorem C108_exact : forall vs ops s tr k v, grun (src_new vs) ops = (s, tr) -> nth_error vs k = Some v -> fits (frames k tr) ->
  (exists o, Forall2 (shifted v o) (frames k tr) (buffers k tr)) <->
  ((length (frames k tr) <= 1)%nat \/ exists f fs, frames k tr = f :: fs /\ mf_ts f = 0).
Proof.
  intros vs ops s tr k v R K F. pose proof (C108_later_partial vs ops s tr k v R K F) as H.
  destruct (frames k tr) as [|f fs]; destruct (buffers k tr) as [|b bs]; try contradiction.
  - split; [cbn; auto with arith|]. intros _. exists 0. constructor.
  - destruct H as [(H1 & H2 & H3) H]. split.
    + intros (o & Q). inversion Q as [|? ? ? ? (Q1 & _) QR]; subst. assert (o = 0) as -> by lia.
      destruct fs as [|f' fs]; [left; cbn; lia|]. right. exists f, (f' :: fs). split; [reflexivity|].
      inversion H as [|? ? ? ? (A & _) _]; subst. inversion QR as [|? ? ? ? (B & _) _]; subst. lia.
    + intros [L|(f' & fs' & [= <- <-] & Z)].
      * destruct fs; [|cbn in L; lia]. inversion H; subst. exists 0. repeat constructor; assumption.
      * exists 0. rewrite Z in H. constructor; [split; auto|exact H].
Qed.
Print Assumptions C108_exact.

(** False: a player that joins ten seconds after the start is given the first frame at ten seconds and the next, 40 ms
    later, at 40 ms. *)
Definition f10 : mframe := MFrame 10000000000 true [x61].
Definition f11 : mframe := MFrame 10040000000 false [x62].
Definition joins : list gop := [GTurn 0 (AFrame f10); GTurn 0 (AFrame f11)].
Theorem C108_relative_refuted : exists vs ops k v, let r := grun (src_new vs) ops in
  nth_error vs k = Some v /\ fits (frames k (snd r)) /\ map (fun b => fst (fst b)) (buffers k (snd r)) = [10000000000; 40000000] /\
  ~ exists o, Forall2 (shifted v o) (frames k (snd r)) (buffers k (snd r)).
Proof.
  exists [true], joins, 0%nat, true. cbv zeta. split; [reflexivity|]. split; [repeat constructor|]. split; [reflexivity|].
  intros (o & H). cbn in H. inversion H as [|? ? ? ? (A & _) H']; subst. inversion H' as [|? ? ? ? (B & _) _]; subst.
  unfold f10, f11 in A, B. cbn [fst snd mf_ts] in A, B.
  change (10000000000 mod 18446744073709551616) with 10000000000 in A. lia.
Qed.
Print Assumptions C108_relative_refuted.
Example C108_example : let r := grun (src_new [true; false]) [GTurn 1 (AFrame f10); GTurn 0 (AFrame (MFrame 0 true [x61])); GTurn 0 (AFrame f11)] in
  buffers 0 (snd r) = [(0, false, [x61]); (10040000000, true, [x62])] /\ length (frames 1 (snd r)) = 1%nat.
Proof. split; reflexivity. Qed.

(** * C109 *)
(** A task panics exactly when reading fails or a frame is earlier than the first one it read. *)
Theorem C109_panics_exactly : forall vs ops s tr k v a s' x, grun (src_new vs) ops = (s, tr) -> nth_error vs k = Some v ->
  gstep s (GTurn k a) = (s', x) -> x <> [EBad] ->
  (In EPanic x <-> a = AError \/ exists f f0 fs, a = AFrame f /\ frames k tr = f0 :: fs /\ mf_ts f < mf_ts f0).
Proof.
  intros vs ops s tr k v a s' x R K G NB. destruct (tasks_run vs ops s tr R k v K) as (t & T & _ & M). cbn in G. rewrite T in G.
  destruct (tk_over t); [injection G as _ <-; congruence|]. destruct a as [f| |]; cbn in G.
  - unfold made in M. destruct (frames k tr) as [|f0 fs].
    + destruct M as [_ M]. rewrite M in G. injection G as _ <-. split; [intros [H|[]]; discriminate|].
      intros [H|(? & ? & ? & _ & H & _)]; discriminate.
    + destruct M as [M _]. rewrite M in G. destruct (N.ltb_spec (mf_ts f) (mf_ts f0)); injection G as _ <-.
      * split; [|intros _; left; reflexivity]. intros _. right. exists f, f0, fs. auto.
      * split; [intros [H'|[]]; discriminate|]. intros [H'|(g & g0 & gs & [= <-] & [= <- <-] & L)]; [discriminate|lia].
  - injection G as _ <-. split; [intros [H|[]]; discriminate|]. intros [H|(? & ? & ? & H & _)]; discriminate.
  - injection G as _ <-. split; [auto|intros _; left; reflexivity].
Qed.
Print Assumptions C109_panics_exactly.
(** False: that frames read without an error do not make it panic. *)
Theorem C109_panic_refuted : exists vs ops k f, let r := grun (src_new vs) ops in
  buffers k (snd r) <> [] /\ snd (gstep (fst r) (GTurn k (AFrame f))) = [EPanic].
Proof. exists [true], [GTurn 0 (AFrame f11)], 0%nat, f10. cbv zeta. split; [discriminate|reflexivity]. Qed.
Print Assumptions C109_panic_refuted.
(** The end of a stream is never announced to the pipeline. *)
Theorem C109_never : forall vs ops s tr, grun (src_new vs) ops = (s, tr) -> forall e, In e tr -> ~ In EEos (snd e).
Proof. intros vs ops s tr. exact (no_eos (src_new vs) ops s tr). Qed.
Print Assumptions C109_never.
Definition C109_told : Prop := forall vs ops s tr k s' x, grun (src_new vs) ops = (s, tr) ->
  gstep s (GTurn k AEnd) = (s', x) -> x <> [EBad] -> In EEos x.
Theorem C109_told_refuted : ~ C109_told.
Proof.
  intros H. specialize (H [true] [] (src_new [true]) [] 0%nat _ _ eq_refl eq_refl ltac:(discriminate)).
  destruct H as [H|[]]. discriminate.
Qed.
Print Assumptions C109_told_refuted.
(** Nor does stopping the element stop its tasks. *)
Theorem C109_stop_refuted : exists vs ops f, let r := grun (src_new vs) (ops ++ [GStop]) in
  sr_stopped (fst r) = true /\ exists t d b, snd (gstep (fst r) (GTurn 0 (AFrame f))) = [EBuffer t d b].
Proof. exists [true], joins, f11. cbv zeta. split; [reflexivity|]. do 3 eexists. reflexivity. Qed.
Print Assumptions C109_stop_refuted.
Example C109_example : let r := grun (src_new [true]) joins in
  snd (gstep (fst r) (GTurn 0 (AFrame f10))) = [EBuffer 0 false [x61]] /\ snd (gstep (fst r) (GTurn 0 AError)) = [EPanic].
Proof. split; reflexivity. Qed.

(** * C110 *)
(** Pads for all tracks are made exactly if each codec is one of H.264, AAC and Opus and the names differ; otherwise it
    panics. *)
Theorem C110_pads_exactly : forall tracks r, make_pads tracks [] = Val r <->
  Forall (fun t => handled (snd t) = true) tracks /\ NoDup (map fst tracks) /\ r = map fst tracks.
Proof. intros tracks r. exact (pads_exact tracks [] r (NoDup_nil _)). Qed.
Print Assumptions C110_pads_exactly.
Definition C110_total : Prop := forall tracks, make_pads tracks [] <> Panic.
Theorem C110_total_refuted :
  (exists n c, make_pads [(n, CVideo (VP9 c))] [] = Panic) /\
  (exists n c, make_pads [(n, CVideo (H264 c)); (n, CAudio Opus)] [] = Panic) /\ ~ C110_total.
Proof.
  split; [exists [x61], (Build_vp9 x00 x00 x08 x01 x01 x01 x01 false); reflexivity|].
  split; [exists [x61], {| h4_profile := x64; h4_constraints := x00; h4_level := x1f |}; reflexivity|].
  intros H. apply (H [([x61], CVideo VP8)]). reflexivity.
Qed.
Print Assumptions C110_total_refuted.
Example C110_example : make_pads [([x76], CVideo (H264 {| h4_profile := x64; h4_constraints := x00; h4_level := x1f |})); ([x61], CAudio Opus)] [] = Val [[x76]; [x61]].
Proof. reflexivity. Qed.
