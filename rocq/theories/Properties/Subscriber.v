(** Subscriptions of a session: C42, C43, C47, C73. *)
From Coq Require Import NArith List Bool.
From Coq Require Import Init.Byte Strings.Byte.
From Verif.Model Require Import Base ErrorCode Stream Frame FrameSys TrackSys Map BroadcastSys TrackUse SubscriberSys.
From Verif.Spec Require Import SubscriberSpec.
From Verif.Proofs Require Import SubscriberP.
Import ListNotations.
Open Scope nat_scope.

Definition pa : bytes := ["a"%byte].

(** ** C42: ids are unique, groups reach the right track *)

(** The ids are handed out in order, wrapping after 2^64. *)
Theorem C42_ids_exact : forall ops s tr k id, srun ssys_new ops = (s, tr) -> nth_error (ids tr) k = Some id ->
  id = (N.of_nat k mod 2 ^ 64)%N.
Proof. exact ids_exact. Qed.
Print Assumptions C42_ids_exact.

(** So none is used twice within the first 2^64. *)
Theorem C42_ids_distinct : forall ops s tr, srun ssys_new ops = (s, tr) -> (N.of_nat (length (ids tr)) <= 2 ^ 64)%N ->
  NoDup (ids tr).
Proof. exact ids_distinct. Qed.
Print Assumptions C42_ids_distinct.

(** A group naming the id of subscription [k] is inserted there, or refused, according to how [k] stands
    and nothing else. *)
Theorem C42_reception : forall ops s tr k id seq g, srun ssys_new ops = (s, tr) -> (N.of_nat (length (ids tr)) <= 2 ^ 64)%N ->
  nth_error (ids tr) k = Some id -> snd (sstep s (SGroup id seq g)) = reception k seq (standing_of k tr).
Proof. exact group_exact. Qed.
Print Assumptions C42_reception.

(** A group naming an id never given out is refused. *)
Theorem C42_unknown : forall ops s tr id seq g, srun ssys_new ops = (s, tr) -> ~ In id (ids tr) ->
  snd (sstep s (SGroup id seq g)) = SRefused Cancel.
Proof. exact group_unknown. Qed.
Print Assumptions C42_unknown.

(** The peer is told the id of the subscription, and the path its broadcast was consumed by. *)
Theorem C42_peer_told : forall ops s tr k id path, srun ssys_new ops = (s, tr) -> In (SStart k, SSubscribe id path) tr ->
  nth_error (ids tr) k = Some id /\
  exists b, nth_error (requests tr) k = Some (b, id) /\ In (SConsume path, SBroadcast b) tr.
Proof.
  intros ops s tr k id path R H. destruct (peer_told ops s tr k id path R H) as (b & H1 & H2).
  split; [rewrite requests_ids, nth_error_map, H1; reflexivity|eauto].
Qed.
Print Assumptions C42_peer_told.

Example C42_example :
  map snd (snd (srun ssys_new [SConsume pa; SRequest 0; SRequest 0; SGroup 1 0 0; SStart 1; SGroup 1 5 0; SGroup 1 5 1; SGroup 0 5 2;
    SStart 0; SGroup 0 5 3; SGroup 7 0 4; SEnd 1 Finished; SRemove 1; SGroup 1 9 5; SGroup 0 6 6])) =
  [SBroadcast 0; SId 0 0; SId 1 1; SRefused Cancel; SSubscribe 1 pa; SInserted 1; SRefused Old; SRefused Cancel;
   SSubscribe 0 pa; SInserted 0; SRefused Cancel; SUnit; SUnit; SRefused Cancel; SInserted 0].
Proof. reflexivity. Qed.

(** ** C43: late groups cannot crash a session *)

(** False: between the end of the track and the removal of its entry, one does. *)
Theorem C43_refuted : exists ops s tr id seq g, srun ssys_new ops = (s, tr) /\ In id (ids tr) /\
  snd (sstep s (SGroup id seq g)) = SPanic.
Proof.
  set (ops := [SConsume pa; SRequest 0; SStart 0; SEnd 0 Finished]).
  exists ops, (fst (srun ssys_new ops)), (snd (srun ssys_new ops)), 0%N, 0%N, 0.
  split; [destruct (srun ssys_new ops); reflexivity|]. split; [|reflexivity].
  assert (E : ids (snd (srun ssys_new ops)) = [0%N]) by reflexivity. rewrite E. cbn. auto.
Qed.
Print Assumptions C43_refuted.

(** In every other state it is refused or accepted: a panic means exactly that window. *)
Theorem C43_window_partial : forall ops s tr k id seq g, srun ssys_new ops = (s, tr) -> (N.of_nat (length (ids tr)) <= 2 ^ 64)%N ->
  nth_error (ids tr) k = Some id -> (snd (sstep s (SGroup id seq g)) = SPanic <-> standing_of k tr = Closing).
Proof. exact group_panic. Qed.
Print Assumptions C43_window_partial.

(** ** C47: unused upstream subscriptions are cancelled *)

(** False: every reader gone, the broadcast's consumer too, and the track still counts as used. *)
Theorem C47_refuted : exists ops s tr p t, urun usys_new ops = (s, tr) /\
  In (UOp (BRequest p), UOut (BRequested (AOk (Some t)))) tr /\ (forall u, ~ read_by tr u) /\
  snd (ustep s (UUnused t)) = UIdle false.
Proof.
  set (ops := [UOp (BConsume 0); UOp (BSubscribe 0 pa); UOp (BRequest 0); UDrop 0; UOp (BCDrop 0)]).
  exists ops, (fst (urun usys_new ops)), (snd (urun usys_new ops)), 0, 0.
  split; [destruct (urun usys_new ops); reflexivity|].
  assert (E : snd (urun usys_new ops) = [(UOp (BConsume 0), UOut BUnit); (UOp (BSubscribe 0 pa), UOut (BTrack 0 true));
    (UOp (BRequest 0), UOut (BRequested (AOk (Some 0)))); (UDrop 0, UUnit); (UOp (BCDrop 0), UOut BUnit)]) by reflexivity.
  rewrite E. split; [cbn; auto|]. split; [|reflexivity].
  intros u [h H]. destruct h as [|[|h]]; discriminate H.
Qed.
Print Assumptions C47_refuted.

(** Nor can it ever: a requested track is never found unused before it ends. *)
Theorem C47_never_unused : forall ops s tr p t, urun usys_new ops = (s, tr) ->
  In (UOp (BRequest p), UOut (BRequested (AOk (Some t)))) tr ->
  snd (ustep s (UOp (BTrackClosed t))) = UOut (BEnded None) -> snd (ustep s (UUnused t)) = UIdle false.
Proof. exact never_unused. Qed.
Print Assumptions C47_never_unused.

(** What holds: a track is never found unused while somebody reads it. *)
Theorem C47_used_partial : forall ops s tr t, urun usys_new ops = (s, tr) -> read_by tr t ->
  snd (ustep s (UUnused t)) <> UIdle true.
Proof. exact read_used. Qed.
Print Assumptions C47_used_partial.

Example C47_example :
  map snd (snd (urun usys_new [UOp (BConsume 0); UOp (BSubscribe 0 pa); UOp (BRequest 0); UClone 0; UDrop 0; UUnused 0; UDrop 1; UUnused 0;
    UOp (BEnd 0 Finished); UOp (BCleanup 0); UUnused 0])) =
  [UOut BUnit; UOut (BTrack 0 true); UOut (BRequested (AOk (Some 0))); UUnit; UUnit; UIdle false; UUnit; UIdle false;
   UOut BUnit; UOut (BRan true); UIdle true].
Proof. reflexivity. Qed.

(** ** C73: consuming one path twice shares one upstream broadcast *)

(** False, always: no broadcast is ever returned twice. *)
Theorem C73_never_shared : forall ops s tr path, srun ssys_new ops = (s, tr) -> NoDup (consumed path tr).
Proof. exact never_shared. Qed.
Print Assumptions C73_never_shared.
Theorem C73_refuted : exists ops s tr path b1 b2, srun ssys_new ops = (s, tr) /\ consumed path tr = [b1; b2] /\ b1 <> b2.
Proof.
  set (ops := [SConsume pa; SConsume pa]).
  exists ops, (fst (srun ssys_new ops)), (snd (srun ssys_new ops)), pa, 0, 1.
  split; [destruct (srun ssys_new ops); reflexivity|]. split; [reflexivity|discriminate].
Qed.
Print Assumptions C73_refuted.
