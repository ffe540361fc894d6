From Coq Require Import List Bool Arith.
From Verif.Model Require Import JsCapture.
From Verif.Spec Require Import JsCaptureSpec.
From Verif.Proofs Require Import JsCaptureP.
Import ListNotations.

(** A page that first shares a camera with its microphone, then a screen with its sound, then closes; never in a hurry *)
Definition calm : list cop :=
  [CAudio true; CVideo true; CDevice (Some Camera); CGranted 0 false; CGranted 1 false; CAudio false; CDevice (Some Screen); CGranted 2 true].
Example calm_log : snd (c_run c_init calm) =
  [EWant None true false; EWant None true true; EWant (Some Camera) true true; EAsk 0 CamAudio; EAsk 1 CamVideo; EGranted 0; ERec 0 KAudio;
   EGranted 1; ERec 1 KVideo; EWant (Some Camera) false true; EStop 0; EWant (Some Screen) false true; EStop 1; EAsk 2 Both;
   EGranted 2; ERec 2 KVideo; ERec 3 KAudio].
Proof. vm_compute. reflexivity. Qed.

(** [unhurried], decided *)
Fixpoint hurry_free (pre l : clog) : bool :=
  match l with
  | [] => true
  | e :: l =>
    (match e with
     | EWant _ _ _ | EClosed =>
       forallb (fun x => match x with
         | EAsk k _ => existsb (fun y => match y with EGranted j | EDenied j => Nat.eqb j k | _ => false end) pre
         | _ => true end) pre
     | _ => true end) && hurry_free (pre ++ [e]) l
  end.
Lemma hurry_free_ok l : forall pre, hurry_free pre l = true ->
  (forall a d x v b, l = a ++ EWant d x v :: b -> forall k, ~ pending (pre ++ a) k) /\ (forall a b, l = a ++ EClosed :: b -> forall k, ~ pending (pre ++ a) k).
Proof.
  assert (X : forall pre k, forallb (fun x => match x with
         | EAsk k _ => existsb (fun y => match y with EGranted j | EDenied j => Nat.eqb j k | _ => false end) pre
         | _ => true end) pre = true -> ~ pending pre k).
  { intros pre k H [[w Hw] [G D]]. rewrite forallb_forall in H. apply H in Hw. apply existsb_exists in Hw. destruct Hw as [y [Hy Q]].
    destruct y; try discriminate; apply Nat.eqb_eq in Q; subst; contradiction. }
  induction l as [|e l IH]; intros pre H.
  - split; intros [|? a]; intros; discriminate.
  - cbn in H. apply andb_true_iff in H. destruct H as [H1 H2]. destruct (IH _ H2) as [I1 I2]. split.
    + intros [|e' a] d x v b E k; cbn in E; injection E as E E'; subst.
      * rewrite app_nil_r. apply X, H1.
      * replace (pre ++ e' :: a) with ((pre ++ [e']) ++ a) by (rewrite <- app_assoc; reflexivity). eapply I1. reflexivity.
    + intros [|e' a] b E k; cbn in E; injection E as E E'; subst.
      * rewrite app_nil_r. apply X, H1.
      * replace (pre ++ e' :: a) with ((pre ++ [e']) ++ a) by (rewrite <- app_assoc; reflexivity). eapply I2. reflexivity.
Qed.
Lemma unhurried_ok l : hurry_free [] l = true -> unhurried l.
Proof. exact (hurry_free_ok l []). Qed.
Example calm_unhurried : unhurried (snd (c_run c_init calm)).
Proof. apply unhurried_ok. vm_compute; reflexivity. Qed.

Ltac rec := split; [vm_compute; tauto|vm_compute; intuition discriminate].

(** * C199: nothing is recorded once nothing is selected, or once the broadcast is closed

    Full claim: without [unhurried].  Missing: changes made while the browser still asks the user for permission. *)
Theorem C199_partial : forall ops t x, let l := snd (c_run c_init ops) in
  unhurried l -> fst (fst (wants l)) = None \/ closed l -> ~ recording l t x.
Proof.
  intros ops t x l U H R. destruct (only_wanted ops t x U R) as [C M]. fold l in C, M. destruct H as [H|H]; [|contradiction].
  destruct (wants l) as [[d a] v]. cbn in H. subst d. destruct x; discriminate.
Qed.
Print Assumptions C199_partial.
Example C199_meets : let l := snd (c_run c_init (calm ++ [CClose])) in unhurried l /\ closed l /\ In (ERec 2 KVideo) l.
Proof. cbn zeta. split; [apply unhurried_ok; vm_compute; reflexivity|]. split; vm_compute; tauto. Qed.
(** Permission that is given after the broadcast was closed turns the camera on, for ever. *)
Theorem C199_refuted : exists ops t, closed (snd (c_run c_init ops)) /\ forall more, recording (snd (c_run c_init (ops ++ more))) t KVideo.
Proof.
  exists [CVideo true; CDevice (Some Camera); CClose; CGranted 0 false], 0. split; [vm_compute; tauto|]. apply for_ever; [vm_compute; tauto|rec].
Qed.
Print Assumptions C199_refuted.
(** So does deselecting the camera while the browser asks. *)
Theorem C199_deselect_refuted : exists ops t, let l := snd (c_run c_init ops) in
  fst (fst (wants l)) = None /\ (forall k, ~ pending l k) /\ recording l t KVideo.
Proof.
  exists [CVideo true; CDevice (Some Camera); CDevice None; CGranted 0 false], 0. cbn zeta. split; [vm_compute; reflexivity|]. split; [|rec].
  assert (E : snd (c_run c_init [CVideo true; CDevice (Some Camera); CDevice None; CGranted 0 false]) =
    [EWant None false true; EWant (Some Camera) false true; EAsk 0 CamVideo; EWant None false true; EGranted 0; ERec 0 KVideo]) by (vm_compute; reflexivity).
  rewrite E. intros k [[w H] [G _]]. cbn in H, G. intuition congruence.
Qed.
Print Assumptions C199_deselect_refuted.

(** * C200: at most one track of each kind is recorded at a time

    Full claim: without [unhurried]; missing as in C199. *)
Theorem C200_partial : forall ops t u x, let l := snd (c_run c_init ops) in unhurried l -> recording l t x -> recording l u x -> t = u.
Proof. exact at_most_one. Qed.
Print Assumptions C200_partial.
Example C200_meets : let l := snd (c_run c_init calm) in unhurried l /\ recording l 2 KVideo /\ recording l 3 KAudio.
Proof. cbn zeta. split; [exact calm_unhurried|]. split; rec. Qed.
(** Off and on again while the browser asks: two cameras record, and closing stops only one of them. *)
Theorem C200_refuted : exists ops t u, let l := snd (c_run c_init ops) in
  t <> u /\ recording l t KVideo /\ recording l u KVideo /\ forall more, recording (snd (c_run c_init ((ops ++ [CClose]) ++ more))) t KVideo.
Proof.
  exists [CVideo true; CDevice (Some Camera); CVideo false; CVideo true; CGranted 0 false; CGranted 1 false], 0, 1. cbn zeta.
  split; [discriminate|]. split; [rec|]. split; [rec|]. apply for_ever; [vm_compute; tauto|rec].
Qed.
Print Assumptions C200_refuted.

(** * C201: only what is enabled is recorded

    Full claim: for screens too, and without [unhurried]. *)
Theorem C201_partial : forall ops t x, let l := snd (c_run c_init ops) in
  unhurried l -> fst (fst (wants l)) <> Some Screen -> recording l t x -> enabled_for (wants l) x = true.
Proof.
  intros ops t x l U H R. destruct (only_wanted ops t x U R) as [_ M]. fold l in M.
  destruct (wants l) as [[[[]|] a] v], x; cbn in *; congruence.
Qed.
Print Assumptions C201_partial.
(** With a screen, something is enabled. *)
Theorem C201_screen_partial : forall ops t x, let l := snd (c_run c_init ops) in
  unhurried l -> recording l t x -> exists y, enabled_for (wants l) y = true.
Proof.
  intros ops t x l U R. destruct (only_wanted ops t x U R) as [_ M]. fold l in M.
  destruct (wants l) as [[[[]|] a] v], x; cbn in *; try discriminate; [exists KAudio|exists KVideo| |]; auto;
    destruct a; cbn in M; [exists KAudio|exists KVideo|exists KAudio|exists KVideo]; auto.
Qed.
Print Assumptions C201_screen_partial.
Example C201_meets : let l := snd (c_run c_init (firstn 6 calm)) in unhurried l /\ fst (fst (wants l)) <> Some Screen /\ recording l 1 KVideo.
Proof. cbn zeta. split; [apply unhurried_ok; vm_compute; reflexivity|]. split; [vm_compute; discriminate|rec]. Qed.
(** Sharing a screen for its sound only records its picture as well; in no hurry at all. *)
Theorem C201_refuted : exists ops t, let l := snd (c_run c_init ops) in
  unhurried l /\ recording l t KVideo /\ enabled_for (wants l) KVideo = false.
Proof.
  exists [CAudio true; CDevice (Some Screen); CGranted 0 true], 0. cbn zeta. split; [apply unhurried_ok; vm_compute; reflexivity|]. split; [rec|vm_compute; reflexivity].
Qed.
Print Assumptions C201_refuted.

(** * C202: the user is asked for what was just selected and enabled, and for nothing else *)
Theorem C202_asks : forall ops o w, let l := snd (c_run c_init ops) in let m := snd (c_run c_init (ops ++ [o])) in
  calls_for (wants l) w = false -> calls_for (wants m) w = true -> ~ closed m -> exists k, In (EAsk k w) m /\ ~ In (EAsk k w) l /\ pending m k.
Proof. exact asks_then. Qed.
Print Assumptions C202_asks.
Theorem C202_only : forall ops o k w, let l := snd (c_run c_init ops) in let m := snd (c_run c_init (ops ++ [o])) in
  In (EAsk k w) m -> ~ In (EAsk k w) l -> calls_for (wants m) w = true /\ ~ closed m.
Proof. exact asks_only. Qed.
Print Assumptions C202_only.
Example C202_meets : let l := snd (c_run c_init (firstn 6 calm)) in let m := snd (c_run c_init (firstn 6 calm ++ [CDevice (Some Screen)])) in
  calls_for (wants l) Both = false /\ calls_for (wants m) Both = true /\ ~ closed m /\ In (EAsk 2 Both) m.
Proof. cbn zeta. split; [vm_compute; reflexivity|]. split; [vm_compute; reflexivity|]. split; [unfold closed; vm_compute; intuition discriminate|vm_compute; tauto]. Qed.
