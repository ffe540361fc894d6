(** Properties C35-C37 for an origin, its handles and its background tasks. *)
From Coq Require Import NArith List Permutation.
From Coq Require Import Init.Byte Strings.Byte.
From Verif.Model Require Import Base FrameSys Map OriginSys.
From Verif.Spec Require Import OriginSpec.
From Verif.Proofs Require Import OriginP OriginTop.
Import ListNotations.
Open Scope nat_scope.

(** * C35 *)
(** A new consumer receives what is active under its prefix, in some order, and then every later
    announcement under its prefix, in order and each once; it never waits while something is due. *)
Theorem C35_consumers_miss_nothing : forall ops s tr p pre ks s' c,
  orun osys_new ops = (s, tr) -> ostep s (OConsume p pre ks) = (s', OConsumer c) ->
  exists snap, snapshot pre tr snap /\ receives s' c pre snap.
Proof. exact consume_receives. Qed.
Print Assumptions C35_consumers_miss_nothing.

(** It is not told that there will be no more while a producer exists. *)
Theorem C35_no_early_end : forall ops s tr c p,
  orun osys_new ops = (s, tr) -> producing s p -> snd (ostep s (ORecv c)) <> ODone.
Proof. exact consume_no_end. Qed.
Print Assumptions C35_no_early_end.

(** The schedule's choices reach every iteration order of the hash map and nothing else. *)
Theorem C35_orders_covered : forall (l m : list (bytes * nat)), Permutation l m <-> exists ks, shuffle ks l = m.
Proof.
  intros l m. split; [apply shuffle_any|]. intros [ks <-]. apply Permutation_sym, shuffle_perm.
Qed.
Print Assumptions C35_orders_covered.

Definition pa : bytes := [x61].         (* "a" *)
Definition pab : bytes := [x61; x62].   (* "ab" *)
Definition pac : bytes := [x61; x63].
Definition pb : bytes := [x62].
(** Two consumers, one dropped in between, one suspended when an announcement comes. *)
Definition c35_ops : list oop :=
  [ONew; ONew; ONew; OPublish 0 pab 0; OPublish 0 pb 1; OConsume 0 [] [1]; OConsume 0 pa []; OPop 1; OPop 1; OCDrop 0; ORecv 1;
   OPublish 0 pac 2; ORecv 1; OPop 1; OPop 1; OPublish 0 pb 0; ORecv 1; OEnd 0; OTask 0; OLookup 0 pab].
Example C35_example :
  map snd (snd (orun osys_new c35_ops)) =
  [OBroadcast 0; OBroadcast 1; OBroadcast 2; OUnique true; OUnique true; OConsumer 0; OConsumer 1; OGot [x62] 0; OEmpty; OUnit; OWaits;
   OUnique true; OWoken; OGot [x63] 2; OEmpty; OUnique false; OWaits; OUnit; ORan pab; OFound None].
Proof. reflexivity. Qed.

(** * C36 *)
(** False: the task waiting for the end of the old broadcast removes whatever is at the path. *)
Theorem C36_replacement_stays_refuted : exists ops s tr p path old new,
  orun osys_new ops = (s, tr) /\ producing s p /\ announced path tr = [old; new] /\ old <> new /\ ~ ended new tr /\
  snd (ostep s (OLookup p path)) = OFound None.
Proof.
  set (ops := [ONew; ONew; OPublish 0 pa 0; OPublish 0 pa 1; OEnd 0; OTask 0]).
  exists ops, (fst (orun osys_new ops)), (snd (orun osys_new ops)), 0, pa, 0, 1.
  split; [destruct (orun osys_new ops); reflexivity|]. split; [reflexivity|]. split; [reflexivity|].
  split; [discriminate|]. split; [|reflexivity].
  assert (E : snd (orun osys_new ops) = [(ONew, OBroadcast 0); (ONew, OBroadcast 1); (OPublish 0 pa 0, OUnique true);
    (OPublish 0 pa 1, OUnique false); (OEnd 0, OUnit); (OTask 0, ORan pa)]) by reflexivity.
  rewrite E. unfold ended. cbn [In]. intros H. repeat (destruct H as [H|H]; [discriminate H|]). exact H.
Qed.
Print Assumptions C36_replacement_stays_refuted.

(** What does hold.  Missing: the case where an earlier broadcast announced at the path has ended. *)
Theorem C36_replacement_stays_partial : forall ops s tr p path bs b,
  orun osys_new ops = (s, tr) -> producing s p -> announced path tr = bs ++ [b] ->
  (forall b', In b' (bs ++ [b]) -> ~ ended b' tr) -> snd (ostep s (OLookup p path)) = OFound (Some b).
Proof. exact found_last. Qed.
Print Assumptions C36_replacement_stays_partial.

(** Exactly: the last one announced, unless the task of any broadcast announced there has run since. *)
Theorem C36_lookup_exact : forall ops s tr p path, orun osys_new ops = (s, tr) -> producing s p ->
  snd (ostep s (OLookup p path)) = OFound (active path tr).
Proof. exact found_active. Qed.
Print Assumptions C36_lookup_exact.

(** Once the tasks have run nothing that ended is found. *)
Theorem C36_ended_not_found : forall ops s tr p path b, orun osys_new ops = (s, tr) -> settled s ->
  snd (ostep s (OLookup p path)) = OFound (Some b) -> ~ ended b tr.
Proof. exact settled_alive. Qed.
Print Assumptions C36_ended_not_found.

Example C36_example :
  map snd (snd (orun osys_new [ONew; ONew; OPublish 0 pa 0; OPublish 0 pa 1; OTask 0; OLookup 0 pa; OEnd 1; OTask 1; OLookup 0 pa])) =
  [OBroadcast 0; OBroadcast 1; OUnique true; OUnique false; OBad; OFound (Some 1); OUnit; ORan pa; OFound None].
Proof. reflexivity. Qed.

(** * C37 *)
(** False: an announcement between the two halves of [clone] reaches the original but not the clone. *)
Theorem C37_clone_lossless_refuted : exists ops s tr,
  orun osys_new ops = (s, tr) /\ ops = [ONew; OConsume 0 [] []; OCloneCopy 0; OPublish 0 pa 0; OCloneLink 0] /\
  last (map snd tr) OUnit = OConsumer 1 /\
  map snd (snd (orun s [OPop 0; OPop 1; ORecv 1])) = [OGot pa 0; OEmpty; OWaits].
Proof.
  set (ops := [ONew; OConsume 0 [] []; OCloneCopy 0; OPublish 0 pa 0; OCloneLink 0]).
  exists ops, (fst (orun osys_new ops)), (snd (orun osys_new ops)).
  split; [destruct (orun osys_new ops); reflexivity|]. split; [reflexivity|]. split; reflexivity.
Qed.
Print Assumptions C37_clone_lossless_refuted.

(** What does hold: the clone receives all that was due to the original when the clone began and all
    announcements after it was completed.  Missing: those in between. *)
Theorem C37_clone_lossless_partial : forall ops s tr c k sc mid sm trm sl d,
  orun osys_new ops = (s, tr) -> ostep s (OCloneCopy c) = (sc, OCopy k) ->
  orun sc mid = (sm, trm) -> ostep sm (OCloneLink k) = (sl, OConsumer d) ->
  exists pre u, receives s c pre u /\ receives sl d pre u.
Proof. exact clone_receives. Qed.
Print Assumptions C37_clone_lossless_partial.

Example C37_example :
  map snd (snd (orun osys_new
    [ONew; ONew; OPublish 0 pa 0; OConsume 0 [] []; OCloneCopy 0; OPop 0; OCloneLink 0; OPublish 0 pb 1; OPop 1; OPop 1; OPop 0; OPop 1])) =
  [OBroadcast 0; OBroadcast 1; OUnique true; OConsumer 0; OCopy 0; OGot pa 0; OConsumer 1; OUnique true; OGot pa 0; OGot pb 1; OGot pb 1; OEmpty].
Proof. reflexivity. Qed.
