(** Properties C140-C143: announcements over any network of origins and sessions. *)
From Coq Require Import NArith ZArith List Bool Lia.
From Coq Require Import Init.Byte Strings.Byte.
From Verif.Model Require Import OriginSys Base Coding Message ErrorCode Stream Frame FrameSys Map Publisher ReceiverSys Spread.
From Verif.Spec Require Import OriginSpec SpreadSpec.
From Verif.Proofs Require Import SpreadTopP SpreadApartP.
Import ListNotations.
Open Scope nat_scope.

(** * C140 *)
(** Whatever is published at an origin of an application, at any time and however far away, stands for a
    broadcast that some application published, under the path that the links on the way make of it. *)
Theorem C140_source : forall ops s tr n path b, sprun spread_new ops = (s, tr) -> origin_made tr n ->
  In (path, b) (given n tr) -> exists b0 hs, comes tr n path b0 hs.
Proof. exact given_comes. Qed.
Print Assumptions C140_source.

(** So does whatever a lookup finds. *)
Theorem C140_found : forall ops s tr n path b, sprun spread_new ops = (s, tr) -> origin_made tr n ->
  finds s n path b -> In (path, b) (given n tr).
Proof. intros ops s tr n path b R _ F. exact (proj2 (found_given _ _ _ _ _ _ R F)). Qed.
Print Assumptions C140_found.

(** Three programs.  Origin 0 is published to the second program, which puts it under "r/" (origin 1) and
    forwards what is under "r/" to origin 2. *)
Definition round : list spop :=
  [SStep 0; SStep 1; STurn 0 0 []; STurn 0 1 []; SRead 0; SLeave 0; SGone 0 2; SGone 0 3; SGone 0 4; SGone 0 5] ++
  flat_map (fun n => [SClean n 0; SClean n 1; SClean n 2]) [0; 1; 2; 3].
Definition settle : list spop := concat (repeat round 12).
Definition setup : list spop :=
  [SNode; SNode; SNode; SNew; SNew; SHop 0 [] [] 1 [x72; x2f]; SLink 1 [x72; x2f] [] 2 [x6d; x2f];
   SPublish 0 [x78] 0; SPublish 0 [x79] 1].
Definition look (ops : list spop) (n : nat) (path : bytes) := so_did (snd (spstep (fst (sprun spread_new ops)) (SUse n (OLookup 0 path)))).
Example C140_example :
  look (setup ++ settle) 2 [x6d; x2f; x78] = [(2, (OLookup 0 [x6d; x2f; x78], OFound (Some 2)))] /\
  comes (snd (sprun spread_new (setup ++ settle))) 2 [x6d; x2f; x78] 0 [0].
Proof.
  split; [vm_compute; reflexivity|].
  pose (tr := snd (sprun spread_new (setup ++ settle))). fold tr.
  assert (E : exists tl, tr = snd (sprun spread_new setup) ++ tl) by (eexists; vm_compute; reflexivity). destruct E as (tl & E).
  let v := eval vm_compute in (snd (sprun spread_new setup)) in assert (V : snd (sprun spread_new setup) = v) by (vm_compute; reflexivity).
  rewrite V in E.
  change [0] with (by_session None ++ (by_session (Some 0) ++ [])).
  eapply comes_by; [eapply comes_by; [eapply comes_here|]|].
  - rewrite E. apply in_or_app. left. do 7 right. left. reflexivity.
  - reflexivity.
  - eapply (leads_hop tr 0 [] [] 1 [x72; x2f] _ [x78] 0); [rewrite E; apply in_or_app; left; do 5 right; left; reflexivity|reflexivity].
  - eapply (leads_link tr 1 [x72; x2f] [] 2 [x6d; x2f] _ [x78]); [rewrite E; apply in_or_app; left; do 6 right; left; reflexivity|reflexivity].
Qed.

(** * C141 *)
(** Once the tasks have nothing left to do, a lookup at an origin finds a path exactly when the path stands
    for a broadcast that has not ended, over sessions that have not closed; and what it finds is open. *)
Theorem C141_settled_partial : forall ops s tr n path, sprun spread_new ops = (s, tr) -> once tr -> at_rest s -> origin_made tr n ->
  ((exists b, finds s n path b) <-> present tr n path) /\ forall b, finds s n path b -> ~ is_closed s b.
Proof. intros ops s tr n path R One Rest M. exact (settled ops s tr R One Rest n path M). Qed.
Print Assumptions C141_settled_partial.

(** In the example: at rest with both found; at rest again after "y" ended, and after the session closed. *)
Ltac rests ops :=
  let v := eval vm_compute in (fst (sprun spread_new ops)) in
  let V := fresh in assert (V : fst (sprun spread_new ops) = v) by (vm_compute; reflexivity);
  rewrite V; clear V;
  let o := fresh in let I := fresh in intros o I; destruct o; try contradiction; clear I;
  match goal with
  | |- context [SClean ?n ?k] => do 5 (destruct n as [|n]; [do 5 (destruct k as [|k]; [vm_compute; reflexivity|]); destruct k; vm_compute; reflexivity|]); destruct n; vm_compute; reflexivity
  | |- context [STurn ?n ?k ?ks] => do 3 (destruct n as [|n]; [do 5 (destruct k as [|k]; [vm_compute; reflexivity|]); destruct k; vm_compute; reflexivity|]); destruct n; vm_compute; reflexivity
  | |- context [SGone ?n ?k] => do 3 (destruct n as [|n]; [do 7 (destruct k as [|k]; [vm_compute; reflexivity|]); destruct k; vm_compute; reflexivity|]); destruct n; vm_compute; reflexivity
  | |- context [SRead ?n] => do 3 (destruct n as [|n]; [vm_compute; reflexivity|]); destruct n; vm_compute; reflexivity
  | |- context [SLeave ?n] => do 3 (destruct n as [|n]; [vm_compute; reflexivity|]); destruct n; vm_compute; reflexivity
  | |- context [SIdle ?n] => do 3 (destruct n as [|n]; [vm_compute; reflexivity|]); destruct n; vm_compute; reflexivity
  | |- context [SStep ?n] => do 3 (destruct n as [|n]; [vm_compute; reflexivity|]); destruct n; vm_compute; reflexivity
  end.
Lemma undisturbed tr : existsb (fun e => match fst e with SEnd _ | SFail _ => true | _ => false end) tr = false ->
  (forall b, ~ was_ended tr b) /\ forall h, ~ was_cut tr h.
Proof.
  intros E. rewrite <- not_true_iff_false, existsb_exists in E. split.
  - intros b (x & I & _). apply E. exists (SEnd b, x). auto.
  - intros h (x & I & _). apply E. exists (SFail h, x). auto.
Qed.
Example C141_example :
  at_rest (fst (sprun spread_new (setup ++ settle))) /\
  at_rest (fst (sprun spread_new (setup ++ settle ++ SEnd 1 :: settle))) /\
  at_rest (fst (sprun spread_new (setup ++ settle ++ SFail 0 :: settle))) /\
  map (fun ops => map (fun p => existsb (fun d => match d with (_, (_, OFound (Some _))) => true | _ => false end) (look ops 2 p)) [[x6d; x2f; x78]; [x6d; x2f; x79]; [x78]])
    [setup; setup ++ settle; setup ++ settle ++ SEnd 1 :: settle; setup ++ settle ++ SFail 0 :: settle] =
  [[false; false; false]; [true; true; false]; [true; false; false]; [false; false; false]].
Proof.
  split; [rests (setup ++ settle)|]. split; [rests (setup ++ settle ++ SEnd 1 :: settle)|]. split; [rests (setup ++ settle ++ SFail 0 :: settle)|].
  vm_compute. reflexivity.
Qed.

(** It is not so when a path is published twice: the peer takes the second announcement for an error and
    stops listening.  That path is then gone there although it is still published and no session has closed. *)
Definition twice : list spop :=
  [SNode; SNode; SNew; SNew; SNew; SHop 0 [] [] 1 []; SPublish 0 [x78] 0; SPublish 0 [x79] 1; SPublish 0 [x78] 2] ++ concat (repeat round 12).
Lemma twice_quiet : (forall b, ~ was_ended (snd (sprun spread_new twice)) b) /\ forall h, ~ was_cut (snd (sprun spread_new twice)) h.
Proof. apply (undisturbed (snd (sprun spread_new twice))). vm_compute. reflexivity. Qed.
Lemma twice_present : present (snd (sprun spread_new twice)) 1 [x78].
Proof.
  pose (tr := snd (sprun spread_new twice)). fold tr.
  let v := eval vm_compute in (snd (sprun spread_new twice)) in assert (V : tr = v) by (vm_compute; reflexivity).
  exists 0, (by_session (Some 0) ++ []). split; [|split].
  - eapply comes_by; [eapply comes_here|].
    + rewrite V. do 6 right. left. reflexivity.
    + reflexivity.
    + eapply (leads_hop tr 0 [] [] 1 [] _ [x78] 0); [rewrite V; do 5 right; left; reflexivity|reflexivity].
  - exact (proj1 twice_quiet 0).
  - intros h _. exact (proj2 twice_quiet h).
Qed.
Lemma made_at (tr : list spevent) k x : nth_error tr k = Some (SNode, x) -> so_made x = Some 1 -> origin_made tr 1.
Proof. intros E M. exists x. split; [exact (nth_error_In _ _ E)|exact M]. Qed.
Theorem C141_refuted : exists ops s tr n path, sprun spread_new ops = (s, tr) /\ at_rest s /\ origin_made tr n /\
  present tr n path /\ forall b, ~ finds s n path b.
Proof.
  exists twice, (fst (sprun spread_new twice)), (snd (sprun spread_new twice)), 1, [x78]. split; [apply surjective_pairing|].
  split; [rests twice|]. split; [apply (made_at _ 1 (SpOut [] (Some 1) true)); vm_compute; reflexivity|]. split; [exact twice_present|].
  intros b F. unfold finds in F. vm_compute in F. discriminate.
Qed.
Print Assumptions C141_refuted.

(** And a path that ends afterwards stays there for ever. *)
Definition stale : list spop := twice ++ SEnd 1 :: concat (repeat round 3).
Definition acts (tr : list spevent) : list spevent :=
  filter (fun e => match fst e with SPublish _ _ _ | SLink _ _ _ _ _ | SHop _ _ _ _ _ | SEnd _ => true | _ => false end) tr.
Lemma in_acts tr op x : In (op, x) tr -> match op with SPublish _ _ _ | SLink _ _ _ _ _ | SHop _ _ _ _ _ | SEnd _ => True | _ => False end -> In (op, x) (acts tr).
Proof. intros I K. apply filter_In. split; [exact I|]. destruct op; try contradiction; reflexivity. Qed.
Lemma acts_in tr e : In e (acts tr) -> In e tr.
Proof. intros I. apply filter_In in I. apply I. Qed.
Theorem C141_stale_refuted : exists ops s tr n path b, sprun spread_new ops = (s, tr) /\ at_rest s /\ origin_made tr n /\
  finds s n path b /\ ~ present tr n path.
Proof.
  exists stale, (fst (sprun spread_new stale)), (snd (sprun spread_new stale)), 1, [x79], 4. split; [apply surjective_pairing|].
  split; [rests stale|]. split; [apply (made_at _ 1 (SpOut [] (Some 1) true)); vm_compute; reflexivity|]. split; [vm_compute; reflexivity|].
  let v := eval vm_compute in (acts (snd (sprun spread_new stale))) in assert (V : acts (snd (sprun spread_new stale)) = v) by (vm_compute; reflexivity).
  assert (E : was_ended (snd (sprun spread_new stale)) 1).
  { assert (exists x, In (SEnd 1, x) (acts (snd (sprun spread_new stale))) /\ so_ok x = true) as (x & I & O).
    { rewrite V. eexists. split; [do 4 right; left; reflexivity|reflexivity]. }
    exists x. split; [exact (acts_in _ _ I)|exact O]. }
  revert V E. generalize (snd (sprun spread_new stale)). intros tr V E (b0 & hs & Co & Ne & _). apply Ne. clear Ne.
  assert (B : forall q b hs, comes tr 0 q b hs -> q = [x79] -> b = 1).
  { intros q b hs0 C. inversion C as [n p b1 x I O|o a p n q1 b1 hs1 C1 L]; subst; intros ->.
    - apply in_acts in I; [|exact Logic.I]. rewrite V in I. cbn in I. intuition congruence.
    - exfalso. inversion L as [a1 pre ks b2 add x s I O|a1 pre ks b2 add x s h I O]; subst; (apply in_acts in I; [|exact Logic.I]); rewrite V in I; cbn in I; intuition congruence. }
  enough (b0 = 1) as -> by exact E. inversion Co as [n p b1 x I O|o a p n q1 b1 hs1 C1 L]; subst.
  - apply in_acts in I; [|exact Logic.I]. rewrite V in I. cbn in I. intuition congruence.
  - inversion L as [a1 pre ks b2 add x s I O|a1 pre ks b2 add x s h I O]; subst; (apply in_acts in I; [|exact Logic.I]); rewrite V in I; cbn in I.
    + intuition congruence.
    + destruct I as [[= <- <- <- <- <-]|I]; [|intuition congruence]. cbn in *. subst s. eapply B; eauto.
Qed.
Print Assumptions C141_stale_refuted.

(** * C142 *)
(** A broadcast that an origin was given is closed only if the broadcast it stands for ended, or a session
    on the way closed. *)
Theorem C142_cause_partial : forall ops s tr n path b, sprun spread_new ops = (s, tr) -> once tr -> origin_made tr n ->
  In (path, b) (given n tr) -> is_closed s b ->
  exists b0 hs, comes tr n path b0 hs /\ (was_ended tr b0 \/ exists h, In h hs /\ was_cut tr h).
Proof. exact closed_why. Qed.
Print Assumptions C142_cause_partial.

Definition shut_after (ops : list spop) : list bool :=
  map (fun b => so_ok (snd (spstep (fst (sprun spread_new ops)) (SClosed b)))) [0; 1; 2; 3].
Example C142_example :
  given 2 (snd (sprun spread_new (setup ++ settle))) = [([x6d; x2f; x78], 2); ([x6d; x2f; x79], 3)] /\
  map shut_after [setup ++ settle; setup ++ settle ++ SEnd 1 :: settle; setup ++ settle ++ SFail 0 :: settle] =
  [[false; false; false; false]; [false; true; false; true]; [false; false; true; true]].
Proof. split; vm_compute; reflexivity. Qed.

(** It is not so when a path is published twice. *)
Theorem C142_refuted : exists ops s tr n path b, sprun spread_new ops = (s, tr) /\ origin_made tr n /\ In (path, b) (given n tr) /\ is_closed s b /\
  forall b0, ~ was_ended tr b0 /\ forall h, ~ was_cut tr h.
Proof.
  exists twice, (fst (sprun spread_new twice)), (snd (sprun spread_new twice)), 1, [x78], 5. split; [apply surjective_pairing|].
  split; [apply (made_at _ 1 (SpOut [] (Some 1) true)); vm_compute; reflexivity|]. split; [vm_compute; auto|]. split; [vm_compute; reflexivity|].
  intros b0. split; [exact (proj1 twice_quiet b0)|exact (proj2 twice_quiet)].
Qed.
Print Assumptions C142_refuted.

(** * C143 *)
(** If the ways into an origin add prefixes that exclude each other, and the application publishes each
    path once and under none of these, no origin is given a path twice. *)
Theorem C143_apart : forall ops s tr, sprun spread_new ops = (s, tr) -> apart tr -> once tr.
Proof. exact apart_once. Qed.
Print Assumptions C143_apart.

Theorem C143_settled : forall ops s tr n path, sprun spread_new ops = (s, tr) -> apart tr -> at_rest s -> origin_made tr n ->
  ((exists b, finds s n path b) <-> present tr n path) /\ forall b, finds s n path b -> ~ is_closed s b.
Proof. intros ops s tr n path R Ap Rest M. exact (settled ops s tr R (apart_once _ _ _ R Ap) Rest n path M). Qed.
Print Assumptions C143_settled.

Example C143_example : apart (snd (sprun spread_new (setup ++ settle))) /\ ~ apart (snd (sprun spread_new twice)).
Proof.
  split.
  - assert (W : ways (snd (sprun spread_new (setup ++ settle))) = [(1, [x72; x2f]); (2, [x6d; x2f])]) by (vm_compute; reflexivity).
    assert (Pt : puts (snd (sprun spread_new (setup ++ settle))) = [(0, [x78]); (0, [x79])]) by (vm_compute; reflexivity).
    unfold apart. rewrite W, Pt. split; [|split].
    + intros [|[|[|i]]] [|[|[|j]]] n p q; cbn; congruence.
    + intros n path p s [[= <- <-]|[[= <- <-]|[]]] [[=]|[[=]|[]]].
    + repeat (constructor; [cbn; intuition congruence|]). constructor.
  - intros (_ & _ & D). assert (Pt : puts (snd (sprun spread_new twice)) = [(0, [x78]); (0, [x79]); (0, [x78])]) by (vm_compute; reflexivity).
    rewrite Pt in D. inversion D as [|? ? N _]. apply N. right. left. reflexivity.
Qed.
