(** C189-C194: the audio player of a web page. *)
From Coq Require Import ZArith NArith List Bool Arith Lia.
From Verif.Model Require Import JsAudio.
From Verif.Spec Require Import JsAudioSpec.
From Verif.Proofs Require Import JsAudioP.
Import ListNotations.
Open Scope nat_scope.

(** Samples that are 20 long; the second and the third come too early, so that those before are brought forward or given up; the last one comes too late. *)
Definition ops1 : list aop :=
  [AEnable true; ASample 1000 0 70 48000; ASample 1020 10 70 48000; ASample 1080 40 70 48000; AEnded 0 41; AEnded 1 41; AEnded 2 130; ASample 1100 200 70 48000].
Example ops1_log : snd (a_run a_init ops1) =
  [EOn; ESample 0 1000 0 70 48000; EContext 0; EPlay 0 0 1000 70 0; ESample 1 1020 10 70 48000; EHush 0; EPlay 1 1 1020 80 10;
   ESample 2 1080 40 70 48000; EHush 0; EHush 1; EPlay 2 2 1080 110 40; EEnded 0 41; EEnded 1 41; EPlay 3 1 1020 50 41; EEnded 2 130;
   ESample 3 1100 200 70 48000; ELate 3 1100 200].
Proof. vm_compute. reflexivity. Qed.

(** ** C189: a sample is played neither in the past nor later than the largest latency after it has come *)
Theorem C189_future : forall ops s l i no ts w cur, a_run a_init ops = (s, l) -> In (EPlay i no ts w cur) l -> (cur <= w)%Z.
Proof. exact future. Qed.
Print Assumptions C189_future.
Theorem C189_soon_partial : forall ops s a i no ts w cur b, a_run a_init ops = (s, a ++ EPlay i no ts w cur :: b) -> no_zero a ->
  exists c0 m r, In (ESample no ts c0 m r) a /\ (w <= c0 + m)%Z.
Proof. exact soon. Qed.
Print Assumptions C189_soon_partial.
Example C189_meets : let l := snd (a_run a_init ops1) in l = firstn 13 l ++ EPlay 3 1 1020 50 41 :: skipn 14 l /\ no_zero l /\
  In (ESample 1 1020 10 70 48000) (firstn 13 l).
Proof. rewrite ops1_log. split; [reflexivity|]. split; [|cbn; auto 10]. intros i no ts w c H E. subst w. cbn in H. repeat (destruct H as [H|H]; [congruence|]). exact H. Qed.
(** False: a reference of zero counts as none (audio.ts:232).  The sample came at 0 with a largest latency of 50 and is played at 85. *)
Theorem C189_refuted : exists ops s a i no ts w cur b, a_run a_init ops = (s, a ++ EPlay i no ts w cur :: b) /\
  forall ts0 c0 m r, In (ESample no ts0 c0 m r) a -> (c0 + m < w)%Z.
Proof.
  exists [AEnable true; ASample 50 0 50 48000; ASample 55 40 50 48000; AEnable false; AEnded 0 45]. eexists.
  exists [EOn; ESample 0 50 0 50 48000; EContext 0; EPlay 0 0 50 50 0; ESample 1 55 40 50 48000; EPlay 1 1 55 90 40; EHush 0; EHush 1; EOff; EEnded 0 45].
  exists 2, 0, 50%Z, 85%Z, 45%Z, []. split; [vm_compute; reflexivity|]. intros ts0 c0 m r H. cbn in H.
  repeat (destruct H as [H|H]; [try discriminate; injection H; intros; subst; lia|]). destruct H.
Qed.
Print Assumptions C189_refuted.

(** ** C190: the sound only ever jumps forward *)
(** The distance between timestamps and times of playing never grows: no pause is put between two samples. *)
Theorem C190_partial : forall ops s a i no ts w cur b i' no' ts' w' cur', a_run a_init ops = (s, a ++ EPlay i no ts w cur :: b) -> no_zero a ->
  In (EPlay i' no' ts' w' cur') a -> (w - ts <= w' - ts')%Z.
Proof. exact forward. Qed.
Print Assumptions C190_partial.
(** Met by [C189_meets] with this: *)
Example C190_meets : In (EPlay 1 1 1020 80 10) (firstn 13 (snd (a_run a_init ops1))).
Proof. rewrite ops1_log. cbn. auto 10. Qed.
Theorem C190_refuted : exists ops s a i no ts w cur b i' no' ts' w' cur', a_run a_init ops = (s, a ++ EPlay i no ts w cur :: b) /\
  In (EPlay i' no' ts' w' cur') a /\ (w - ts = 35 /\ w' - ts' = 0)%Z.
Proof.
  exists [AEnable true; ASample 50 0 50 48000; ASample 55 40 50 48000]. eexists.
  exists [EOn; ESample 0 50 0 50 48000; EContext 0; EPlay 0 0 50 50 0; ESample 1 55 40 50 48000], 1, 1, 55%Z, 90%Z, 40%Z, [], 0, 0, 50%Z, 50%Z, 0%Z.
  split; [vm_compute; reflexivity|]. cbn. auto 10.
Qed.
Print Assumptions C190_refuted.

(** ** C191: no sample is heard twice *)
(** If a sample is played again, it had been stopped before its time. *)
Theorem C191_partial : forall ops s a i no ts w cur b j ts' w' cur' e, a_run a_init ops = (s, a ++ EPlay i no ts w cur :: b) -> no_zero a ->
  In (EPlay j no ts' w' cur') a -> In (EEnded j e) a -> (e < w')%Z.
Proof. exact once. Qed.
Print Assumptions C191_partial.
(** Met by [C189_meets] with this: *)
Example C191_meets : let a := firstn 13 (snd (a_run a_init ops1)) in In (EPlay 1 1 1020 80 10) a /\ In (EEnded 1 41) a.
Proof. rewrite ops1_log. cbn. auto 15. Qed.
(** False for a reference of zero: the sample was played at 50, is over at 60, and is played again at 85. *)
Theorem C191_refuted : exists ops s a i no ts w cur b j w' cur' e, a_run a_init ops = (s, a ++ EPlay i no ts w cur :: b) /\
  In (EPlay j no ts w' cur') a /\ In (EEnded j e) a /\ (w' + 10 <= e)%Z /\ ~ In (EHush j) a.
Proof.
  exists [AEnable true; ASample 50 0 50 48000; ASample 55 40 50 48000; AEnded 0 60]. eexists.
  exists [EOn; ESample 0 50 0 50 48000; EContext 0; EPlay 0 0 50 50 0; ESample 1 55 40 50 48000; EPlay 1 1 55 90 40; EEnded 0 60].
  exists 2, 0, 50%Z, 85%Z, 60%Z, [], 0, 50%Z, 0%Z, 60%Z. split; [vm_compute; reflexivity|]. cbn. split; [auto 10|]. split; [auto 10|]. split; [lia|].
  intro H. intuition discriminate.
Qed.
Print Assumptions C191_refuted.

(** ** C192: samples are thrown away only if they are late, and the sound comes back *)
(** A sample is thrown away only if an earlier one came earlier by more than its largest latency, against the clock. *)
Theorem C192_late_partial : forall ops s a no ts cur b, a_run a_init ops = (s, a ++ ELate no ts cur :: b) ->
  exists no' ts' cur' m' r', In (ESample no' ts' cur' m' r') a /\ no' <> no /\ (ts - cur < ts' - cur' - m')%Z.
Proof. exact late_why. Qed.
Print Assumptions C192_late_partial.
(** Met by the last two events of [ops1_log]. *)
(** False that the sound comes back: if the publisher starts again with smaller timestamps, all samples are thrown away. *)
Theorem C192_refuted : exists ops s l, a_run a_init ops = (s, l) /\ a_on s = true /\
  forall xs, (forall o, In o xs -> exists ts cur m q, o = ASample ts cur m q /\ (ts - cur < 1000000)%Z) ->
  forall i no ts w c, ~ In (EPlay i no ts w c) (snd (a_run s xs)).
Proof.
  exists [AEnable true; ASample 9000000 0 70 48000]. eexists. eexists. split; [vm_compute; reflexivity|]. split; [reflexivity|].
  intros xs H. apply silent with (r := 8999930%Z); try reflexivity; [lia| |].
  - intros ts cur m q D. destruct (H _ D) as (ts' & cur' & m' & q' & E & L). injection E; intros; subst. lia.
  - intros o D. destruct (H _ D) as (ts' & cur' & m' & q' & E & _). eauto.
Qed.
Print Assumptions C192_refuted.

(** ** C193: a player that is disabled is silent *)
(** If nodes end in the order in which they were started, all nodes were stopped that have not ended. *)
Theorem C193_stopped_partial : forall ops s a b i, a_run a_init ops = (s, a ++ EOff :: b) -> in_order a -> started a i -> ~ ended a i -> In (EHush i) a.
Proof. exact hushed. Qed.
Print Assumptions C193_stopped_partial.
(** What is started afterwards is a sample that had come before. *)
Theorem C193_old_partial : forall ops s a b i no ts w cur c, a_run a_init ops = (s, a ++ EOff :: b ++ EPlay i no ts w cur :: c) -> ~ In EOn b ->
  exists c0 m r, In (ESample no ts c0 m r) a.
Proof. exact off_old. Qed.
Print Assumptions C193_old_partial.
Example C193_meets : let a := [EOn; ESample 0 1000 0 70 48000; EContext 0; EPlay 0 0 1000 70 0; ESample 1 1005 10 70 48000; EPlay 1 1 1005 75 10; EEnded 0 71; EHush 1] in
  snd (a_run a_init [AEnable true; ASample 1000 0 70 48000; ASample 1005 10 70 48000; AEnded 0 71; AEnable false]) = a ++ [EOff] /\
  in_order a /\ started a 1 /\ ~ ended a 1.
Proof.
  split; [vm_compute; reflexivity|]. split; [|split].
  - intros a i c b E j L. assert (H : In (EEnded i c) (a ++ EEnded i c :: b)) by (apply in_or_app; right; left; reflexivity). rewrite <- E in H. cbn in H.
    repeat (destruct H as [H|H]; [try discriminate; injection H; intros; subst; lia|]). destruct H.
  - exists 1, 1005%Z, 75%Z, 10%Z. cbn. auto 10.
  - intros (c & H). cbn in H. intuition discriminate.
Qed.
(** False: stop() makes onended schedule the sample again. *)
Theorem C193_refuted : exists ops s a b i no ts w cur c, a_run a_init ops = (s, a ++ EOff :: b ++ EPlay i no ts w cur :: c) /\ ~ In EOn b /\ no_zero a /\ in_order (a ++ EOff :: b).
Proof.
  exists [AEnable true; ASample 100 0 50 48000; AEnable false; AEnded 0 1]. eexists.
  exists [EOn; ESample 0 100 0 50 48000; EContext 0; EPlay 0 0 100 50 0; EHush 0], [EEnded 0 1], 1, 0, 100%Z, 50%Z, 1%Z, [].
  split; [vm_compute; reflexivity|]. split; [cbn; intuition discriminate|]. split.
  - intros i no ts w c H E. subst w. cbn in H. intuition congruence.
  - intros a i c b E j L. assert (H : In (EEnded i c) (a ++ EEnded i c :: b)) by (apply in_or_app; right; left; reflexivity). rewrite <- E in H. cbn in H.
    repeat (destruct H as [H|H]; [try discriminate; injection H; intros; subst; lia|]). destruct H.
Qed.
Print Assumptions C193_refuted.
(** False: a node that has ended takes the first node off the list of the active ones, which need not be itself (audio.ts:299-301).  Node 1 is to play at
    time 50 and is not stopped. *)
Theorem C193_missed_refuted : exists ops s a i, a_run a_init ops = (s, a ++ [EOff]) /\ started a i /\ ~ ended a i /\ ~ In (EHush i) a.
Proof.
  exists [AEnable true; ASample 100 0 50 48000; ASample 120 0 50 48000; AEnded 0 1; AEnded 2 49; AEnable false]. eexists.
  exists [EOn; ESample 0 100 0 50 48000; EContext 0; EPlay 0 0 100 50 0; ESample 1 120 0 50 48000; EHush 0; EPlay 1 1 120 50 0;
    EEnded 0 1; EPlay 2 0 100 30 1; EEnded 2 49; EHush 2], 1. split; [vm_compute; reflexivity|]. split; [|split].
  - exists 1, 120%Z, 50%Z, 0%Z. cbn. auto 10.
  - intros (c & H). cbn in H. intuition discriminate.
  - cbn. intuition discriminate.
Qed.
Print Assumptions C193_missed_refuted.

(** ** C194: there is at most one AudioContext (none is ever closed) *)
Theorem C194_partial : forall ops s l, a_run a_init ops = (s, l) -> enabled_once l -> one_rate l -> length (contexts l) <= 1.
Proof. exact one_context. Qed.
Print Assumptions C194_partial.
Example C194_meets : let l := snd (a_run a_init ops1) in enabled_once l /\ one_rate l /\ contexts l = [0].
Proof.
  rewrite ops1_log. split; [|split; [|reflexivity]].
  - intros a b E H. destruct a as [|x a]; [destruct H|]. cbn [app] in E. injection E as _ E. assert (D : In EOn (a ++ EOn :: b)) by (apply in_or_app; right; left; reflexivity).
    rewrite <- E in D. cbn in D. intuition discriminate.
  - intros n1 t1 c1 m1 r1 n2 t2 c2 m2 r2 A B.
    assert (Q : forall n t c m r, In (ESample n t c m r) (snd (a_run a_init ops1)) -> r = 48000%N).
    { intros n t c m r H. rewrite ops1_log in H. cbn in H. repeat (destruct H as [H|H]; [try discriminate; injection H; intros; subst; reflexivity|]). destruct H. }
    rewrite ops1_log in Q. rewrite (Q _ _ _ _ _ A), (Q _ _ _ _ _ B). reflexivity.
Qed.
(** False: each time the player is enabled again there is one more. *)
Theorem C194_refuted : exists f : nat -> list aop, forall n, one_rate (snd (a_run a_init (f n))) /\ length (contexts (snd (a_run a_init (f n)))) = S n.
Proof.
  exists (fun n => [AEnable true; ASample 100 0 50 48000] ++ toggle n). intro n. cbn [app a_run].
  destruct (a_step a_init (AEnable true)) as [s1 l1] eqn:E1. vm_compute in E1. injection E1 as <- <-.
  match goal with |- context [a_step ?s (ASample ?t ?c ?m ?r)] => destruct (a_step s (ASample t c m r)) as [s2 l2] eqn:E2 end. vm_compute in E2. injection E2 as <- <-.
  match goal with |- context [a_run ?s (toggle n)] => pose proof (toggles n s eq_refl ltac:(discriminate)) as Q; pose proof (toggle_quiet n s) as P; destruct (a_run s (toggle n)) as [s3 l3] end.
  cbn [snd] in *. split.
  - assert (R : forall a b c d r, In (ESample a b c d r) ([EOn] ++ [ESample 0 100 0 50 48000; EContext 0; EPlay 0 0 100 50 0] ++ l3) -> r = 48000%N).
    { intros a b c d r H. cbn in H. repeat (destruct H as [H|H]; [try discriminate; injection H; intros; subst; reflexivity|]). exfalso. eapply P; eauto. }
    intros n1 t1 c1 m1 r1 n2 t2 c2 m2 r2 A B. rewrite (R _ _ _ _ _ A), (R _ _ _ _ _ B). reflexivity.
  - cbn. fold (contexts l3). now rewrite Q.
Qed.
Print Assumptions C194_refuted.
