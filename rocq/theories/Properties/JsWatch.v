From Coq Require Import List Bool Arith.
From Verif.Model Require Import JsWatch.
From Verif.Spec Require Import JsWatchSpec.
From Verif.Proofs Require Import JsWatchP.
Import ListNotations.

(** A page that watches path 5 over connection 1, until its broadcast ends and is announced once more *)
Definition calm : list wop :=
  [WEnable true; WPath 5; WConn (Some 1); WAnn 0 true; WCat 0 70; WAnn 0 false; WEnd 0; WAnn 0 true; WCat 1 71].
Definition calm_events : wlog :=
  [EEnable true; EPath 5; EConn (Some 1); EListen 0 1 5; EAnn 0 true; EConsume 0 1 5; EStatus Loading; ELoad 0 0; ECat 0 70; EShow (Some (0, 70)); EStatus Live;
   EAnn 0 false; EClose 0; EUnload 0; EEnd 0; EShow None; EStatus Offline; EAnn 0 true; EConsume 1 1 5; EStatus Loading; ELoad 1 1;
   ECat 1 71; EShow (Some (1, 71)); EStatus Live].
Example calm_log : snd (w_run_ops w_init calm) = calm_events.
Proof. vm_compute. reflexivity. Qed.

(** The connection is lost and made again *)
Definition again : list wop := [WEnable true; WPath 5; WConn (Some 1); WAnn 0 true; WCat 0 70; WConn None; WEnd 0; WConn (Some 2)].
Definition again_events : wlog :=
  [EEnable true; EPath 5; EConn (Some 1); EListen 0 1 5; EAnn 0 true; EConsume 0 1 5; EStatus Loading; ELoad 0 0; ECat 0 70; EShow (Some (0, 70)); EStatus Live;
   EConn None; EUnlisten 0; EClose 0; EUnload 0; EEnd 0; EShow None; EStatus Offline; EConn (Some 2); EListen 1 2 5; EConsume 1 2 5; EStatus Loading; ELoad 1 1].
Example again_log : snd (w_run_ops w_init again) = again_events.
Proof. vm_compute. reflexivity. Qed.

Ltac rec := split; [vm_compute; tauto|vm_compute; intuition discriminate].

(** * C204: a broadcast is consumed if and only if it is announced

    Full claim: also while the present listener has heard nothing yet, when nothing should be consumed. *)
Theorem C204_partial : forall ops b, let l := snd (w_run_ops w_init ops) in heard l = Some b -> ((exists n c p, consumed l n c p) <-> b = true).
Proof. exact follows. Qed.
Print Assumptions C204_partial.
(** What is consumed instead: whatever was announced last, on whichever connection, under whichever path. *)
Theorem C204_exact : forall ops, let l := snd (w_run_ops w_init ops) in
  (exists n c p, consumed l n c p) <-> enabled l = true /\ connection l <> None /\ ever_heard l = true.
Proof. exact consumed_exact. Qed.
Print Assumptions C204_exact.
Example C204_meets : heard (snd (w_run_ops w_init calm)) = Some true /\ consumed (snd (w_run_ops w_init calm)) 1 1 5.
Proof. rewrite calm_log. split; [reflexivity|rec]. Qed.
(** After the connection is made again, the broadcast is consumed although nobody has announced it there. *)
Theorem C204_refuted : exists ops n c p, let l := snd (w_run_ops w_init ops) in
  heard l = None /\ (forall k a, In (EAnn k a) l -> ~ listening l k c p) /\ consumed l n c p.
Proof.
  exists again, 1, 2, 5. cbn zeta. rewrite again_log. split; [reflexivity|]. split; [|rec].
  intros k a H [H1 _]. cbn in H, H1. repeat (destruct H as [H|H]; [try discriminate H|]); [|destruct H].
  injection H as <- <-. repeat (destruct H1 as [H1|H1]; [discriminate H1|]). destruct H1.
Qed.
Print Assumptions C204_refuted.
(** After the path is changed, a broadcast is consumed that was never announced. *)
Theorem C204_path_refuted : exists ops n, let l := snd (w_run_ops w_init ops) in
  heard l = None /\ consumed l n 1 6 /\ forall k a, In (EAnn k a) l -> In (EListen k 1 5) l.
Proof.
  exists [WEnable true; WPath 5; WConn (Some 1); WAnn 0 true; WPath 6], 1. cbn zeta.
  assert (E : snd (w_run_ops w_init [WEnable true; WPath 5; WConn (Some 1); WAnn 0 true; WPath 6]) =
    [EEnable true; EPath 5; EConn (Some 1); EListen 0 1 5; EAnn 0 true; EConsume 0 1 5; EStatus Loading; ELoad 0 0; EPath 6; EUnlisten 0; EListen 1 1 6;
     EClose 0; EConsume 1 1 6; EUnload 0; EStatus Loading; ELoad 1 1]) by (vm_compute; reflexivity).
  rewrite E. split; [reflexivity|]. split; [rec|]. intros k a H. cbn in H. repeat (destruct H as [H|H]; [try discriminate H|]); [|destruct H].
  injection H as <- <-. cbn. tauto.
Qed.
Print Assumptions C204_path_refuted.

(** * C205: a broadcast that is announced is loaded

    Full claim: whenever the present listener has not heard of it before.  Missing: when another listener had, last. *)
Theorem C205_partial : forall ops k, let l := snd (w_run_ops w_init ops) in let m := snd (w_run_ops w_init (ops ++ [WAnn k true])) in
  forall c p, listening l k c p -> ever_heard l = false -> exists n, ~ In (EConsume n c p) l /\ consumed m n c p /\ state_of m = Loading.
Proof. exact anew. Qed.
Print Assumptions C205_partial.
Example C205_meets : let l := snd (w_run_ops w_init (firstn 7 calm)) in listening l 0 1 5 /\ ever_heard l = false.
Proof. cbn zeta. split; [rec|vm_compute; reflexivity]. Qed.
(** The connection was made again before the broadcast was: loading fails.  Then the broadcast is announced, and the page stays offline, for as
    long as it is not told that the broadcast has ended. *)
Theorem C205_refuted : exists ops k c p, let l := snd (w_run_ops w_init ops) in
  listening l k c p /\ heard l = None /\ enabled l = true /\
  forall more, Forall announcing more -> let m := snd (w_run_ops w_init (ops ++ WAnn k true :: more)) in heard m = Some true /\ state_of m = Offline.
Proof.
  exists (again ++ [WEnd 1]), 1, 2, 5. cbn zeta. split; [rec|]. split; [vm_compute; reflexivity|]. split; [vm_compute; reflexivity|].
  intros more HM. replace ((again ++ [WEnd 1]) ++ WAnn 1 true :: more) with ((again ++ [WEnd 1; WAnn 1 true]) ++ more) by reflexivity.
  rewrite run_app.
  assert (E : w_run_ops w_init (again ++ [WEnd 1; WAnn 1 true]) =
    (Watch true (Some 2) 5 true (Some 1) 2 (Some 1) 2 (Some 1) [false; false] None Offline,
     again_events ++ [EEnd 1; EShow None; EStatus Offline; EAnn 1 true])) by (vm_compute; reflexivity).
  rewrite E.
  assert (G : forall l, heard l = Some true -> state_of l = Offline ->
    let y := snd (w_run_ops (Watch true (Some 2) 5 true (Some 1) 2 (Some 1) 2 (Some 1) [false; false] None Offline) more) in heard (l ++ y) = Some true /\ state_of (l ++ y) = Offline).
  { clear E. induction HM as [|o more Ho HM IH]; intros l H1 H2; [cbn; rewrite app_nil_r; auto|].
    assert (S : exists e, w_step (Watch true (Some 2) 5 true (Some 1) 2 (Some 1) 2 (Some 1) [false; false] None Offline) o =
      (Watch true (Some 2) 5 true (Some 1) 2 (Some 1) 2 (Some 1) [false; false] None Offline, e) /\ (e = [] \/ e = [EAnn 1 true])).
    { destruct o as [| | |j []|j v|j]; try contradiction; cbn.
      - destruct j as [|[|j]]; [exists []|exists [EAnn 1 true]|exists []]; auto.
      - exists []. destruct j as [|[|[|j]]]; auto.
      - exists []. destruct j as [|[|[|j]]]; auto. }
    destruct S as (e & S & He). cbn [w_run_ops]. rewrite S.
    assert (X : heard (l ++ e) = Some true /\ state_of (l ++ e) = Offline).
    { destruct (folds l e) as (_ & _ & _ & _ & -> & -> & _). destruct He as [->| ->]; cbn; auto. }
    specialize (IH _ (proj1 X) (proj2 X)). destruct (w_run_ops _ more) as [s' y]. cbn [snd] in *. rewrite app_assoc. exact IH. }
  specialize (G (again_events ++ [EEnd 1; EShow None; EStatus Offline; EAnn 1 true])). cbn zeta in G.
  destruct (w_run_ops _ more) as [s' y]. cbn [snd] in *. apply G; vm_compute; reflexivity.
Qed.
Print Assumptions C205_refuted.

(** * C206: what is consumed and listened to is the present path, over the present connection, and only while enabled; one at a time *)
Theorem C206_current : forall ops, let l := snd (w_run_ops w_init ops) in
  (forall n c p, consumed l n c p -> enabled l = true /\ connection l = Some c /\ path l = p) /\
  (forall n m c p d q, consumed l n c p -> consumed l m d q -> n = m) /\
  (forall k c p, listening l k c p -> enabled l = true /\ connection l = Some c /\ path l = p) /\
  (forall k j c p d q, listening l k c p -> listening l j d q -> k = j) /\
  (enabled l = true -> forall c, connection l = Some c -> exists k, listening l k c (path l)).
Proof. exact current. Qed.
Print Assumptions C206_current.
Example C206_meets : let l := snd (w_run_ops w_init again) in consumed l 1 2 5 /\ listening l 1 2 5 /\ In (EConsume 0 1 5) l.
Proof. cbn zeta. rewrite again_log. split; [rec|]. split; [rec|cbn; tauto]. Qed.

(** * C207: the status says what is the case

    Offline if nothing is being loaded or watched; live only with a catalog; not offline with one. *)
Theorem C207_status : forall ops, let l := snd (w_run_ops w_init ops) in
  (state_of l = Live -> shown l <> None) /\ (shown l <> None -> state_of l <> Offline) /\ ((forall k, ~ running l k) -> state_of l = Offline /\ shown l = None).
Proof. intros ops l. destruct (status_ok ops) as (A & B & C & _). auto. Qed.
Print Assumptions C207_status.
(** And offline only if nothing is.  Full claim: without [one_by_one]; missing: a broadcast that follows another at once. *)
Theorem C207_partial : forall ops, let l := snd (w_run_ops w_init ops) in one_by_one l -> (state_of l = Offline <-> forall k, ~ running l k).
Proof. exact status_one. Qed.
Print Assumptions C207_partial.
(** [one_by_one], decided *)
Fixpoint obo (pre l : wlog) : bool :=
  match l with
  | [] => true
  | e :: l =>
    (match e with
     | ELoad _ _ => forallb (fun x => match x with ELoad k _ => existsb (fun y => match y with EEnd j => Nat.eqb j k | _ => false end) pre | _ => true end) pre
     | _ => true end) && obo (pre ++ [e]) l
  end.
Lemma obo_ok l : forall pre, obo pre l = true -> forall a k n b, l = a ++ ELoad k n :: b -> forall j, ~ running (pre ++ a) j.
Proof.
  induction l as [|e l IH]; intros pre H a k n b E j; [destruct a; discriminate|]. cbn in H. apply andb_true_iff in H. destruct H as [H1 H2].
  destruct a as [|e' a]; cbn in E; injection E as E E'; subst.
  - rewrite app_nil_r. intros [[m Hm] He]. rewrite forallb_forall in H1. apply H1 in Hm. apply existsb_exists in Hm. destruct Hm as [y [Hy Q]].
    destruct y; try discriminate. apply Nat.eqb_eq in Q. subst. contradiction.
  - replace (pre ++ e' :: a) with ((pre ++ [e']) ++ a) by (rewrite <- app_assoc; reflexivity). eapply IH; [exact H2|reflexivity].
Qed.
Example C207_meets : one_by_one (snd (w_run_ops w_init calm)) /\ state_of (snd (w_run_ops w_init calm)) = Live.
Proof. rewrite calm_log. split; [|reflexivity]. exact (obo_ok calm_events [] eq_refl). Qed.
(** The path is changed: the new broadcast is being loaded, and live soon, but the end of the old one says offline. *)
Theorem C207_refuted : exists ops k n, let l := snd (w_run_ops w_init ops) in
  loads l k n /\ consumed l n 1 6 /\ running l k /\ (forall j, running l j -> j = k) /\ state_of l = Offline.
Proof.
  exists [WEnable true; WPath 5; WConn (Some 1); WAnn 0 true; WCat 0 70; WPath 6; WEnd 0], 1, 1. cbn zeta.
  assert (E : snd (w_run_ops w_init [WEnable true; WPath 5; WConn (Some 1); WAnn 0 true; WCat 0 70; WPath 6; WEnd 0]) =
    [EEnable true; EPath 5; EConn (Some 1); EListen 0 1 5; EAnn 0 true; EConsume 0 1 5; EStatus Loading; ELoad 0 0; ECat 0 70; EShow (Some (0, 70)); EStatus Live;
     EPath 6; EUnlisten 0; EListen 1 1 6; EClose 0; EConsume 1 1 6; EUnload 0; EStatus Loading; ELoad 1 1; EEnd 0; EShow None; EStatus Offline]) by (vm_compute; reflexivity).
  rewrite E. split; [rec|]. split; [rec|]. split; [split; [exists 1; cbn; tauto|cbn; intuition discriminate]|]. split; [|reflexivity].
  intros j [[n H] H']. cbn in H. repeat (destruct H as [H|H]; [first [discriminate H|injection H as <- <-]|]); [| |destruct H]; [|reflexivity].
  exfalso. apply H'. cbn. tauto.
Qed.
Print Assumptions C207_refuted.

(** * C208: the catalog that is shown is that of the broadcast that is consumed

    Full claim: always.  Proved: it is one that its own broadcast sent and that has not ended; and the right one unless an older one has not ended. *)
Theorem C208_partial : forall ops k v, let l := snd (w_run_ops w_init ops) in shown l = Some (k, v) -> running l k /\ In (ECat k v) l.
Proof. intros ops k v l. destruct (status_ok ops) as (_ & _ & _ & D). apply D. Qed.
Print Assumptions C208_partial.
Theorem C208_current_partial : forall ops k v, let l := snd (w_run_ops w_init ops) in
  (forall j, running l j -> exists n, loads l j n) -> shown l = Some (k, v) ->
  exists n, loads l k n /\ consumed l n match connection l with Some c => c | None => 0 end (path l).
Proof. exact catalog_current. Qed.
Print Assumptions C208_current_partial.
Example C208_meets : let l := snd (w_run_ops w_init calm) in shown l = Some (1, 71) /\ forall j, running l j -> exists n, loads l j n.
Proof.
  cbn zeta. rewrite calm_log. split; [reflexivity|]. intros j [[n H] H']. exists n. split; [exact H|].
  cbn in H. repeat (destruct H as [H|H]; [first [discriminate H|injection H as <- <-]|]); [| |destruct H]; [exfalso; apply H'; cbn; tauto|]. cbn. intuition discriminate.
Qed.
(** The path is changed: the page goes on showing the catalog of the old one, as that of the new. *)
Theorem C208_refuted : exists ops k v n, let l := snd (w_run_ops w_init ops) in shown l = Some (k, v) /\ In (ELoad k n) l /\ In (EClose n) l /\ consumed l 1 1 6.
Proof.
  exists [WEnable true; WPath 5; WConn (Some 1); WAnn 0 true; WCat 0 70; WPath 6], 0, 70, 0. cbn zeta. split; [vm_compute; reflexivity|].
  split; [vm_compute; tauto|]. split; [vm_compute; tauto|rec].
Qed.
Print Assumptions C208_refuted.
