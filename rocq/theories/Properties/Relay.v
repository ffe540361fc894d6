(** Properties C51, C69, C77: what a relay passes on. *)
From Coq Require Import NArith ZArith List Bool Lia.
From Coq Require Import Init.Byte Strings.Byte.
From Verif.Model Require Import Base FrameSys Map OriginSys Text Auth Relay.
From Verif.Spec Require Import OriginSpec RelaySpec.
From Verif.Proofs Require Import RelaySysP RelayTop.
Import ListNotations.
Open Scope nat_scope.

(** * C51 *)
(** What an accepted session is told is below its subscribe scope, and is announced in the relay below
    its root at the same path. *)
Theorem C51_learns : forall ops s tr t p r x b,
  rlrun relay_new ops = (s, tr) -> accepts t p r tr -> told p x b tr ->
  exists sub rest, pl_subscribe t = Some sub /\ x = sub ++ rest /\ (told 0 (pl_path t ++ x) b tr \/ told 1 (pl_path t ++ x) b tr).
Proof. exact learns. Qed.
Print Assumptions C51_learns.

(** What is announced directly to the relay was announced by an accepted session, below its publish
    scope, and is below its root at the same path; or is what a token forces. *)
Theorem C51_visible : forall ops s tr x b,
  rlrun relay_new ops = (s, tr) -> told 0 x b tr -> exists t p r, accepts t p r tr /\
  ((exists pub rest, pl_publish t = Some pub /\ x = pl_path t ++ pub ++ rest /\ told r (pub ++ rest) b tr) \/
   (exists f, pl_force t = Some f /\ x = pl_path t ++ f)).
Proof. exact visible. Qed.
Print Assumptions C51_visible.

(** Everything in scope arrives: when nothing is left to do, a session has been told of every active
    broadcast below its root and subscribe scope. *)
Theorem C51_delivers : forall ops s tr t p r sub rest b i,
  rlrun relay_new ops = (s, tr) -> at_rest s -> accepts t p r tr -> pl_subscribe t = Some sub -> i < 2 ->
  active (pl_path t ++ sub ++ rest) (history i tr) = Some b -> told p (sub ++ rest) b tr.
Proof. exact delivers. Qed.
Print Assumptions C51_delivers.

(** A forwarding task announces exactly what its consumer obtained, in order and each once, with one
    prefix in place of another, but for at most the last. *)
Theorem C51_in_order : forall ops s tr k src pre c dst,
  rlrun relay_new ops = (s, tr) -> started k src pre c dst tr ->
  exists cut l h, got c (history src tr) = l ++ h /\ length h <= 1 /\ passed k tr = below cut l /\
    (src < 2 -> exists path, pre = path ++ cut) /\ (dst = 0 -> exists path, cut = path ++ pre).
Proof. exact in_order. Qed.
Print Assumptions C51_in_order.

(** Two users: the first may publish below "a" + "b", the second subscribe there; the first announces
    "bx" and, out of its scope, "c". *)
Definition t_pub : payload := Payload [x61] (Some [x62]) None None None None.
Definition t_sub : payload := Payload [x61] None None (Some [x62]) None None.
Definition c51_ops : list rlop :=
  [RlAccept t_pub; RlAccept t_sub; RlSetup 0 []; RlSetup 1 []; RlSetup 1 []; RlNew; RlNew;
   RlOrigin 3 (OPublish 0 [x62; x78] 0); RlOrigin 3 (OPublish 0 [x63] 1);
   RlStep 0; RlStep 0; RlStep 0; RlStep 0; RlStep 0; RlStep 1; RlStep 1; RlStep 1; RlStep 1; RlStep 1; RlStep 2].
Definition c51_run : relay * list rlevent := rlrun relay_new c51_ops.
Example C51_example :
  accepts t_pub 2 3 (snd c51_run) /\ accepts t_sub 4 5 (snd c51_run) /\
  told 0 [x61; x62; x78] 0 (snd c51_run) /\ told 4 [x62; x78] 0 (snd c51_run) /\
  announced [x61; x63] (history 0 (snd c51_run)) = [] /\
  active (pl_path t_sub ++ [x62] ++ [x78]) (history 0 (snd c51_run)) = Some 0 /\
  started 1 0 [x61; x62] 0 4 (snd c51_run) /\ passed 1 (snd c51_run) = [([x62; x78], 0)] /\ at_rest (fst c51_run).
Proof.
  assert (T : forall i x b, existsb (Nat.eqb b) (announced x (history i (snd c51_run))) = true -> told i x b (snd c51_run)).
  { intros i x b H. apply existsb_exists in H as (y & Hy & E). apply EqNat.beq_nat_true_stt in E. subst y. exact Hy. }
  split; [apply (nth_error_In _ 0); vm_compute; reflexivity|]. split; [apply (nth_error_In _ 1); vm_compute; reflexivity|]. split; [apply T; vm_compute; reflexivity|].
  split; [apply T; vm_compute; reflexivity|]. split; [vm_compute; reflexivity|]. split; [vm_compute; reflexivity|].
  split; [exists 1, []; apply (nth_error_In _ 3); vm_compute; reflexivity|]. split; [vm_compute; reflexivity|].
  split.
  - intros [|[|n]] ks; [vm_compute; reflexivity..|]. cbn [rlstep].
    assert (E : length (rl_todo (fst c51_run)) = 2) by (vm_compute; reflexivity).
    rewrite (proj2 (nth_error_None _ _)) by lia. reflexivity.
  - intros [|[|[|k]]]; [vm_compute; exact I..|]. cbn [rlstep].
    assert (E : length (rl_fwds (fst c51_run)) = 3) by (vm_compute; reflexivity).
    rewrite (proj2 (nth_error_None _ _)) by lia. exact I.
Qed.

(** * C69 *)
(** What is announced directly to the relay is looked up first, and then what peers announced. *)
Theorem C69_local_first : forall ops s tr ops' s' tr' locals remotes path,
  rlrun relay_new ops = (s, tr) -> rlrun s ops' = (s', tr') ->
  nth_error (rl_origins s) 0 = Some locals -> nth_error (rl_origins s') 1 = Some remotes ->
  cluster_get locals remotes path =
  match active path (history 0 tr) with Some b => Some b | None => active path (history 1 (tr ++ tr')) end.
Proof. exact get_local_first. Qed.
Print Assumptions C69_local_first.

(** A dialled peer is told what is announced directly to the relay, at the same path, and nothing else. *)
Theorem C69_to_peers_partial : forall ops s tr p r x b,
  rlrun relay_new ops = (s, tr) -> dialled p r tr -> told p x b tr -> told 0 x b tr.
Proof. exact dialled_learns. Qed.
Print Assumptions C69_to_peers_partial.
Theorem C69_to_peers_all : forall ops s tr p r x b,
  rlrun relay_new ops = (s, tr) -> at_rest s -> dialled p r tr -> active x (history 0 tr) = Some b -> told p x b tr.
Proof. exact dial_delivers. Qed.
Print Assumptions C69_to_peers_all.
(** What the relay knows from peers was announced by a dialled peer at the same path. *)
Theorem C69_from_peers : forall ops s tr x b,
  rlrun relay_new ops = (s, tr) -> told 1 x b tr -> exists p r, dialled p r tr /\ told r x b tr.
Proof. exact remote_from. Qed.
Print Assumptions C69_from_peers.

(** False: a peer may have dialled this relay; what it announces counts as announced directly and is
    passed on to the peers this relay dialled.  The peer's token forces its name under
    "internal/origins/" (shortened to "i/"). *)
Definition t_peer : payload := Payload [] (Some []) (Some [x69; x2f; x70]) (Some []) None None.
Theorem C69_no_loop_refuted : exists ops s tr t p r p' r' x b,
  rlrun relay_new ops = (s, tr) /\ accepts t p r tr /\ pl_force t <> None /\ dialled p' r' tr /\ told r x b tr /\ told p' x b tr.
Proof.
  set (ops := [RlAccept t_peer; RlDial; RlSetup 0 []; RlSetup 0 []; RlSetup 0 []; RlSetup 0 []; RlSetup 1 []; RlSetup 1 []; RlNew;
    RlOrigin 3 (OPublish 0 [x78] 1); RlStep 2; RlStep 2; RlStep 3; RlStep 3; RlStep 3; RlStep 3]).
  exists ops, (fst (rlrun relay_new ops)), (snd (rlrun relay_new ops)), t_peer, 2, 3, 4, 5, [x78], 1.
  assert (T : forall i x b, existsb (Nat.eqb b) (announced x (history i (snd (rlrun relay_new ops)))) = true -> told i x b (snd (rlrun relay_new ops))).
  { intros i x b H. apply existsb_exists in H as (y & Hy & E). apply EqNat.beq_nat_true_stt in E. subst y. exact Hy. }
  split; [destruct (rlrun relay_new ops); reflexivity|]. split; [apply (nth_error_In _ 0); vm_compute; reflexivity|]. split; [discriminate|]. split; [apply (nth_error_In _ 1); vm_compute; reflexivity|].
  split; apply T; vm_compute; reflexivity.
Qed.
Print Assumptions C69_no_loop_refuted.

(** The hypotheses of the others: a dialled peer announced "x" (0), a user "y" (1). *)
Definition c69_ops : list rlop :=
  [RlAccept t_pub; RlDial; RlSetup 0 []; RlSetup 1 []; RlSetup 1 []; RlNew; RlNew;
   RlOrigin 5 (OPublish 0 [x78] 0); RlStep 2; RlStep 2; RlStep 2; RlStep 2; RlStep 2; RlOrigin 3 (OPublish 0 [x62] 1);
   RlStep 0; RlStep 0; RlStep 0; RlStep 0; RlStep 0; RlStep 1; RlStep 1; RlStep 1; RlStep 1; RlStep 1].
Definition c69_run : relay * list rlevent := rlrun relay_new c69_ops.
Example C69_example :
  dialled 4 5 (snd c69_run) /\ told 4 [x61; x62] 1 (snd c69_run) /\ told 1 [x78] 0 (snd c69_run) /\ at_rest (fst c69_run) /\
  active [x61; x62] (history 0 (snd c69_run)) = Some 1 /\ announced [x78] (history 4 (snd c69_run)) = [] /\
  (exists l m, nth_error (rl_origins (fst c69_run)) 0 = Some l /\ nth_error (rl_origins (fst c69_run)) 1 = Some m /\
     cluster_get l m [x78] = Some 0 /\ cluster_get l m [x61; x62] = Some 1).
Proof.
  assert (T : forall i x b, existsb (Nat.eqb b) (announced x (history i (snd c69_run))) = true -> told i x b (snd c69_run)).
  { intros i x b H. apply existsb_exists in H as (y & Hy & E). apply EqNat.beq_nat_true_stt in E. subst y. exact Hy. }
  split; [apply (nth_error_In _ 1); vm_compute; reflexivity|]. split; [apply T; vm_compute; reflexivity|]. split; [apply T; vm_compute; reflexivity|].
  split; [|repeat split; try (vm_compute; reflexivity); do 2 eexists; vm_compute; repeat split; reflexivity].
  split.
  - intros [|[|n]] ks; [vm_compute; reflexivity..|]. cbn [rlstep].
    assert (E : length (rl_todo (fst c69_run)) = 2) by (vm_compute; reflexivity).
    rewrite (proj2 (nth_error_None _ _)) by lia. reflexivity.
  - intros [|[|[|k]]]; [vm_compute; exact I..|]. cbn [rlstep].
    assert (E : length (rl_fwds (fst c69_run)) = 3) by (vm_compute; reflexivity).
    rewrite (proj2 (nth_error_None _ _)) by lia. exact I.
Qed.

(** * C77 *)
(** False: the tasks announcing to a session outlive it.  The subscribing user's session ends: both its
    origins' first handles are dropped; what is announced afterwards is still put in its origin. *)
Theorem C77_ends_refuted : exists ops ops' s tr s' tr' t p r x b,
  rlrun relay_new ops = (s, tr) /\ accepts t p r tr /\
  In (RlOrigin p (ODrop 0), did [(p, (ODrop 0, OUnit))]) tr /\ In (RlOrigin r (ODrop 0), did [(r, (ODrop 0, OUnit))]) tr /\ at_rest s /\
  rlrun s ops' = (s', tr') /\ told p x b tr'.
Proof.
  set (ops := [RlAccept t_pub; RlAccept t_sub; RlSetup 0 []; RlSetup 1 []; RlSetup 1 []; RlNew; RlStep 0; RlStep 1; RlStep 2;
    RlOrigin 4 (ODrop 0); RlOrigin 5 (ODrop 0)]).
  set (ops' := [RlOrigin 3 (OPublish 0 [x62] 0); RlStep 0; RlStep 0; RlStep 0; RlStep 1; RlStep 1; RlStep 1]).
  set (s := fst (rlrun relay_new ops)).
  exists ops, ops', s, (snd (rlrun relay_new ops)), (fst (rlrun s ops')), (snd (rlrun s ops')), t_sub, 4, 5, [x62], 0.
  split; [unfold s; destruct (rlrun relay_new ops); reflexivity|]. split; [apply (nth_error_In _ 1); vm_compute; reflexivity|].
  split; [apply (nth_error_In _ 9); vm_compute; reflexivity|]. split; [apply (nth_error_In _ 10); vm_compute; reflexivity|].
  split; [|split; [destruct (rlrun s ops'); reflexivity|apply (nth_error_In _ 0); vm_compute; reflexivity]].
  split.
  - intros [|[|n]] ks; [vm_compute; reflexivity..|]. cbn [rlstep].
    assert (E : length (rl_todo s) = 2) by (vm_compute; reflexivity).
    rewrite (proj2 (nth_error_None _ _)) by lia. reflexivity.
  - intros [|[|[|k]]]; [vm_compute; exact I..|]. cbn [rlstep].
    assert (E : length (rl_fwds s) = 3) by (vm_compute; reflexivity).
    rewrite (proj2 (nth_error_None _ _)) by lia. exact I.
Qed.
Print Assumptions C77_ends_refuted.

(** In every history: a task announcing to a session never comes to its end. *)
Theorem C77_never_ends : forall ops s tr k src pre c dst,
  rlrun relay_new ops = (s, tr) -> started k src pre c dst tr -> src < 2 -> ro_did (snd (rlstep s (RlStep k))) <> [].
Proof. exact never_stops. Qed.
Print Assumptions C77_never_ends.
(** The tasks announcing what a session publishes do: when the session is gone, all it announced ended
    and nothing is left to do, they are over. *)
Theorem C77_publishing_ends_partial : forall ops s tr k src pre c dst o,
  rlrun relay_new ops = (s, tr) -> started k src pre c dst tr -> at_rest s ->
  nth_error (rl_origins s) src = Some o -> (forall p, ~ producing o p) -> settled o ->
  (forall x b, In b (announced x (history src tr)) -> ended b (history src tr)) -> ro_did (snd (rlstep s (RlStep k))) = [].
Proof. exact publishing_stops. Qed.
Print Assumptions C77_publishing_ends_partial.
Example C77_example :
  let ops := [RlOrigin 3 (ODrop 0); RlEnd 0; RlEnd 1; RlOrigin 3 (OTask 0); RlOrigin 3 (OTask 1); RlStep 0; RlStep 0] in
  map (fun e => ro_did (snd e)) (skipn 5 (snd (rlrun (fst c51_run) ops))) = [[(3, (ORecv 0, ODone)); (3, (OCDrop 0, OUnit)); (0, (ODrop 1, OUnit))]; []] /\
  started 0 3 [x62] 0 0 (snd c51_run).
Proof. split; [vm_compute; reflexivity|exists 0, []; apply (nth_error_In _ 2); vm_compute; reflexivity]. Qed.
