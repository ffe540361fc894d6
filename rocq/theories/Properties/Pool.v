(** C85-C87: the sessions shared by the elements of a web page. *)
From Coq Require Import NArith List Bool Lia.
From Coq Require Import Init.Byte Strings.Byte.
From Verif.Model Require Import Base Map FrameSys Pool.
From Verif.Spec Require Import PoolSpec.
From Verif.Proofs Require Import PoolP.
Import ListNotations.

Definition url_a : bytes := ["a"%byte].
Definition url_b : bytes := ["b"%byte].
Definition day : list cop :=
  [CConnect url_a; CConnect url_b; CConnect url_a; CPoll 0; CDone 0 true; CPoll 0; CPoll 2; CDone 1 false; CPoll 1;
   CLost 0; CConnect url_a; CDone 2 true; CPoll 3; CPoll 0].
Example day_trace : map snd (snd (crun pool_new day)) =
  [CNew 0; CNew 1; CShared 0; CPending; CUnit; CSession 0; CSession 0; CUnit; CError 1;
   CUnit; CNew 2; CUnit; CSession 2; CSession 0].
Proof. reflexivity. Qed.

(** ** C85: elements with the same URL share one session *)
(** Connecting to a URL that has an attempt whose session was not lost gives that attempt. *)
Theorem C85_shared : forall ops s tr u n, crun pool_new ops = (s, tr) ->
  tried tr u n -> ~ lost tr n -> snd (cstep s (CConnect u)) = CShared n.
Proof. exact connect_shared. Qed.
Print Assumptions C85_shared.

(** Otherwise it makes a new attempt, with a number not used before. *)
Theorem C85_new : forall ops s tr u, crun pool_new ops = (s, tr) ->
  (forall n, tried tr u n -> lost tr n) ->
  exists n, snd (cstep s (CConnect u)) = CNew n /\ forall v, ~ tried tr v n.
Proof. exact connect_new. Qed.
Print Assumptions C85_new.

(** So there is at most one attempt or session per URL at a time. *)
Theorem C85_one : forall ops s tr u n m, crun pool_new ops = (s, tr) ->
  tried tr u n -> tried tr u m -> ~ lost tr n -> ~ lost tr m -> n = m.
Proof. exact one_alive. Qed.
Print Assumptions C85_one.

(** No two URLs share an attempt. *)
Theorem C85_apart : forall ops s tr u v n, crun pool_new ops = (s, tr) -> tried tr u n -> tried tr v n -> u = v.
Proof. exact tried_once. Qed.
Print Assumptions C85_apart.

(** What an element is told is what became of the attempt it was given, and it waits exactly while that is
    undecided. *)
Theorem C85_result : forall ops s tr h n, crun pool_new ops = (s, tr) -> nth_error (given tr) h = Some n ->
  match snd (cstep s (CPoll h)) with
  | CPending => ~ came_up tr n /\ ~ failed tr n
  | CSession m => m = n /\ came_up tr n
  | CError m => m = n /\ failed tr n
  | CBad => dropped tr h
  | _ => False
  end.
Proof. exact poll_result. Qed.
Print Assumptions C85_result.

Example C85_meets : let (s, tr) := crun pool_new day in
  tried tr url_a 2 /\ ~ lost tr 2 /\ lost tr 0 /\ given tr = [0; 1; 0; 2]%nat /\
  snd (cstep s (CConnect url_a)) = CShared 2.
Proof.
  vm_compute. repeat split; auto 20. intro H.
  repeat (destruct H as [H|H]; [discriminate|]). exact H.
Qed.

(** ** C86: connecting again after a failure tries again *)
(** It does not: once an attempt for a URL failed, whatever happens next, connecting to that URL never makes
    another attempt. *)
Theorem C86_stuck : forall ops more u n,
  tried (snd (crun pool_new ops)) u n -> failed (snd (crun pool_new ops)) n ->
  snd (cstep (fst (crun pool_new (ops ++ more))) (CConnect u)) = CShared n.
Proof. exact failure_forever. Qed.
Print Assumptions C86_stuck.

Theorem C86_retry_refuted : exists ops u n s tr, crun pool_new ops = (s, tr) /\
  tried tr u n /\ failed tr n /\ (forall h, nth_error (given tr) h = Some n -> dropped tr h) /\
  ~ (exists m, snd (cstep s (CConnect u)) = CNew m).
Proof.
  exists [CConnect url_a; CDone 0 false; CPoll 0; CDrop 0], url_a, 0%nat. eexists. eexists. split; [reflexivity|].
  split; [cbn; auto|]. split; [cbn; auto|]. split.
  - cbn. intros [|[|h]]; cbn; try discriminate. unfold dropped. cbn. auto 10.
  - intros [m H]. discriminate H.
Qed.
Print Assumptions C86_retry_refuted.

(** A session that was up and then lost is replaced. *)
Theorem C86_lost_partial : forall ops s tr u, crun pool_new ops = (s, tr) ->
  (forall n, tried tr u n -> lost tr n) ->
  exists n, snd (cstep s (CConnect u)) = CNew n.
Proof. intros ops s tr u E H. destruct (connect_new ops s tr u E H) as (n & A & _). eauto. Qed.
Print Assumptions C86_lost_partial.

(** ** C87: a session that no element uses any more is closed *)
(** It never is: this side closes no session, ever. *)
Theorem C87_never : forall ops n, ~ released (snd (crun pool_new ops)) n.
Proof. exact never_released. Qed.
Print Assumptions C87_never.

Theorem C87_unused_refuted : exists ops n s tr, crun pool_new ops = (s, tr) /\
  came_up tr n /\ ~ lost tr n /\ unused tr n /\
  forall more, ~ released (snd (crun pool_new (ops ++ more))) n.
Proof.
  exists [CConnect url_a; CDone 0 true; CPoll 0; CDrop 0], 0%nat. eexists. eexists. split; [reflexivity|].
  split; [cbn; auto|]. split.
  - unfold lost. cbn. intros H. repeat (destruct H as [H|H]; [discriminate|]). exact H.
  - split.
    + unfold unused, dropped. cbn. intros [|[|h]]; cbn; try discriminate. auto 10.
    + intro more. apply never_released.
Qed.
Print Assumptions C87_unused_refuted.
