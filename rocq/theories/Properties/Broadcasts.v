(** Properties C31-C34 for a broadcast, its handles and its background tasks. *)
From Coq Require Import NArith ZArith List.
From Coq Require Import Init.Byte Strings.Byte.
From Verif.Model Require Import Base ErrorCode Stream Frame FrameSys Map BroadcastSys.
From Verif.Spec Require Import BroadcastSpec.
From Verif.Proofs Require Import BroadcastP BroadcastTop.
Import ListNotations.
Open Scope nat_scope.

(** * C31 *)
(** While the track last put in service under [n] has not ended and a producer lives, every
    subscription joins it and nothing changes, so no further request is queued. *)
Theorem C31_subscriptions_join : forall ops s tr c n t s' x,
  brun bsys_new ops = (s, tr) -> ~ shut tr -> serving n tr = Some t -> ~ stopped t tr ->
  bstep s (BSubscribe c n) = (s', x) -> x <> BBad -> x = BTrack t false /\ s' = s.
Proof. exact subscribe_joins. Qed.
Print Assumptions C31_subscriptions_join.

(** A subscription that creates nothing always returns the track in service under that very name. *)
Theorem C31_subscription_is_current : forall ops s tr c n t s',
  brun bsys_new ops = (s, tr) -> bstep s (BSubscribe c n) = (s', BTrack t false) -> serving n tr = Some t /\ s' = s.
Proof. exact subscribe_gives. Qed.
Print Assumptions C31_subscription_is_current.

(** The publisher receives exactly the subscriptions that created a track, each once and in order. *)
Theorem C31_one_request_each : forall ops s tr, brun bsys_new ops = (s, tr) ->
  NoDup (handed tr) /\ exists rest, missed tr = handed tr ++ rest.
Proof. exact requests_in_order. Qed.
Print Assumptions C31_one_request_each.

Definition video : bytes := [x76].
Definition audio : bytes := [x61].
Definition c31_ops : list bop :=
  [BConsume 0; BConsume 0; BSubscribe 0 video; BSubscribe 1 video; BSubscribe 0 audio; BRequest 0; BSubscribe 1 video; BRequest 0; BRequest 0].
Example C31_example :
  let (s, tr) := brun bsys_new c31_ops in
  map snd tr = [BUnit; BUnit; BTrack 0 true; BTrack 0 false; BTrack 1 true; BRequested (AOk (Some 0)); BTrack 0 false;
                BRequested (AOk (Some 1)); BRequested APending] /\
  serving video tr = Some 0 /\ handed tr = [0; 1] /\ missed tr = [0; 1].
Proof. vm_compute. auto. Qed.
Example C31_hypotheses :
  let tr := snd (brun bsys_new c31_ops) in ~ shut tr /\ serving video tr = Some 0 /\ ~ stopped 0 tr.
Proof.
  assert (E : snd (brun bsys_new c31_ops) =
    [(BConsume 0, BUnit); (BConsume 0, BUnit); (BSubscribe 0 video, BTrack 0 true); (BSubscribe 1 video, BTrack 0 false);
     (BSubscribe 0 audio, BTrack 1 true); (BRequest 0, BRequested (AOk (Some 0))); (BSubscribe 1 video, BTrack 0 false);
     (BRequest 0, BRequested (AOk (Some 1))); (BRequest 0, BRequested APending)]) by reflexivity.
  cbn zeta. rewrite E. split; [|split; [reflexivity|]]; intros [p H]; cbn [In] in H;
    repeat (destruct H as [H|H]; [discriminate H|]); exact H.
Qed.

(** * C32 *)
(** A track given to a subscriber was offered by the publisher, was handed to it, has ended, or waits:
    any live producer that keeps asking gets it, and if there is none, the shutdown ends it. *)
Theorem C32_no_dangling : forall ops s tr t, brun bsys_new ops = (s, tr) -> In t (given tr) ->
  In t (offered tr) \/ In t (handed tr) \/ over s t \/
  ((forall p, snd (bstep s (BRequest p)) <> BBad ->
      exists k, In (BRequest p, BRequested (AOk (Some t))) (snd (brun s (repeat (BRequest p) k)))) /\
   (shut tr -> exists k, over (fst (brun s (repeat BDropStep k))) t)).
Proof. exact no_dangling. Qed.
Print Assumptions C32_no_dangling.

(** Once the shutdown is complete none waits. *)
Theorem C32_none_waits_after_shutdown : forall ops s tr t, brun bsys_new ops = (s, tr) -> In t (given tr) -> shut tr ->
  snd (bstep s BDropStep) = BBad -> In t (offered tr) \/ In t (handed tr) \/ over s t.
Proof. exact shutdown_leaves_none. Qed.
Print Assumptions C32_none_waits_after_shutdown.

Theorem C32_shutdown_completes : forall s, exists k, snd (bstep (fst (brun s (repeat BDropStep k))) BDropStep) = BBad.
Proof. exact drop_completes. Qed.
Print Assumptions C32_shutdown_completes.

(** Subscriptions racing with the shutdown: one before the channel closes, one before the drain, one
    before the table is cleared. *)
Definition c32_ops : list bop :=
  [BConsume 0; BSubscribe 0 video; BDrop 0; BSubscribe 0 audio; BDropStep; BSubscribe 0 [x62]; BDropStep; BDropStep; BDropStep;
   BSubscribe 0 [x63]; BDropStep; BTrackClosed 0; BTrackClosed 1; BTrackClosed 2; BTrackClosed 3; BDropStep].
Example C32_example :
  map snd (snd (brun bsys_new c32_ops)) =
  [BUnit; BTrack 0 true; BShutdown; BTrack 1 true; BUnit; BTrack 2 true; BUnit; BUnit; BUnit; BTrack 3 true; BUnit;
   BEnded (Some (Failed Cancel)); BEnded (Some (Failed Cancel)); BEnded (Some (Failed Cancel)); BEnded (Some (Failed Cancel)); BBad].
Proof. reflexivity. Qed.

(** * C33 *)
(** However many cleanup tasks run, a track in service that has not ended stays in service. *)
Theorem C33_cleanup_spares_others : forall ops s tr ks c n t,
  brun bsys_new ops = (s, tr) -> bstep s (BSubscribe c n) = (s, BTrack t false) -> ~ over s t ->
  let s' := fst (brun s (map BCleanup ks)) in bstep s' (BSubscribe c n) = (s', BTrack t false).
Proof. exact cleanups_spare. Qed.
Print Assumptions C33_cleanup_spares_others.

(** Once the cleanup tasks have run, no subscription is given an ended track. *)
Theorem C33_cleanup_evicts_ended : forall ops s tr c n t s',
  brun bsys_new ops = (s, tr) -> ~ shut tr -> settled s -> bstep s (BSubscribe c n) = (s', BTrack t false) -> ~ over s t.
Proof. exact settled_fresh. Qed.
Print Assumptions C33_cleanup_evicts_ended.

(** The old track ends after its replacement was inserted; its cleanup leaves the replacement alone. *)
Example C33_example :
  map snd (snd (brun bsys_new
    [BConsume 0; BCreate 0 video; BCreate 0 video; BEnd 0 Finished; BCleanup 0; BSubscribe 0 video; BEnd 1 Finished; BSubscribe 0 video;
     BCleanup 1; BSubscribe 0 video])) =
  [BUnit; BTrack 0 true; BTrack 1 true; BUnit; BRan false; BTrack 1 false; BUnit; BTrack 1 false; BRan true; BTrack 2 true].
Proof. reflexivity. Qed.

(** * C34 *)
(** Dropping a producer shuts the broadcast down exactly when it is the last one alive. *)
Theorem C34_last_drop_shuts_down : forall ops s tr p s' x,
  brun bsys_new ops = (s, tr) -> bstep s (BDrop p) = (s', x) -> x <> BBad ->
  (x = BShutdown <-> producers tr = 1%Z) /\ (x = BUnit <-> (1 < producers tr)%Z).
Proof. exact drop_shuts_last. Qed.
Print Assumptions C34_last_drop_shuts_down.

(** Dropping another one cannot be observed through any other handle. *)
Theorem C34_other_drops_are_silent : forall ops s tr p s' more,
  brun bsys_new ops = (s, tr) -> bstep s (BDrop p) = (s', BUnit) ->
  Forall (fun o => about_producer p o = false) more -> snd (brun s' more) = snd (brun s more).
Proof. exact drop_other_silent. Qed.
Print Assumptions C34_other_drops_are_silent.

(** After the shutdown every subscription is given a track that has ended. *)
Theorem C34_shutdown_rejects : forall ops s tr c n s' t b,
  brun bsys_new ops = (s, tr) -> shut tr -> snd (bstep s BDropStep) = BBad ->
  bstep s (BSubscribe c n) = (s', BTrack t b) -> over s' t.
Proof. exact shutdown_closes. Qed.
Print Assumptions C34_shutdown_rejects.

(** A live producer is never told that there will be no more requests. *)
Theorem C34_requests_stay_open : forall ops s tr p,
  brun bsys_new ops = (s, tr) -> snd (bstep s (BRequest p)) <> BRequested (AOk None).
Proof. exact request_never_none. Qed.
Print Assumptions C34_requests_stay_open.

Example C34_example :
  map snd (snd (brun bsys_new
    [BConsume 0; BClone 0; BCreate 0 video; BDrop 0; BSubscribe 0 video; BSubscribe 0 audio; BRequest 1; BClosed 0; BDrop 1; BDropStep;
     BDropStep; BDropStep; BClosed 0; BSubscribe 0 video; BTrackClosed 2; BTrackClosed 0])) =
  [BUnit; BUnit; BTrack 0 true; BUnit; BTrack 0 false; BTrack 1 true; BRequested (AOk (Some 1)); BIsClosed false; BShutdown; BUnit;
   BUnit; BUnit; BIsClosed true; BTrack 2 true; BEnded (Some (Failed Cancel)); BEnded None].
Proof. reflexivity. Qed.
