(** C146: announcements come to rest. *)
From Coq Require Import NArith ZArith List Lia Bool.
From Coq Require Import Init.Byte Strings.Byte.
From Verif.Model Require Import OriginSys Base Map Spread.
From Verif.Spec Require Import OriginSpec SpreadSpec RestSpec.
From Verif.Proofs Require Import SpreadCalmP.
From Verif.Properties Require Import Spread.
Import ListNotations.
Open Scope nat_scope.

(** However the tasks are scheduled, they can only change so much before somebody uses the network again. *)
Theorem C146_bounded : forall ops s tr, sprun spread_new ops = (s, tr) -> ordered tr -> exists most, forall n, works s n -> n <= most.
Proof. exact works_bound. Qed.
Print Assumptions C146_bounded.

(** They can always come to rest ... *)
Theorem C146_rest : forall ops s tr, sprun spread_new ops = (s, tr) -> ordered tr -> exists os, Forall internal os /\ at_rest (fst (sprun s os)).
Proof. exact comes_to_rest. Qed.
Print Assumptions C146_rest.

(** ... and whatever they did until then, every origin has exactly what is to be seen there. *)
Theorem C146_settled : forall ops s tr, sprun spread_new ops = (s, tr) -> apart tr ->
  forall os s', Forall internal os -> fst (sprun s os) = s' -> at_rest s' -> forall n path, origin_made tr n ->
  ((exists b, finds s' n path b) <-> present tr n path) /\ forall b, finds s' n path b -> ~ is_closed s' b.
Proof. exact then_settled. Qed.
Print Assumptions C146_settled.

(** The example of C140: not at rest, ordered, can change eleven times. *)
Example C146_example : ordered (snd (sprun spread_new setup)) /\ works (fst (sprun spread_new setup)) 11 /\ ~ at_rest (fst (sprun spread_new setup)).
Proof.
  split; [|split].
  - exists (fun n => n). let v := eval vm_compute in (snd (sprun spread_new setup)) in assert (V : snd (sprun spread_new setup) = v) by (vm_compute; reflexivity). rewrite V.
    intros a pre ks b add x [I|I] _; repeat (destruct I as [I|I]; [try discriminate I; injection I; intros; subst; lia|]); destruct I.
  - set (s := fst _).
    assert (G : forall s ops, Forall internal ops -> (fix chk s ops := match ops with [] => True | o :: ops => fst (spstep s o) <> s /\ chk (fst (spstep s o)) ops end) s ops -> works s (length ops)).
    { clear. intros s ops. revert s. induction ops as [|o ops IH]; intros s F C; [constructor|]. inversion F; subst. destruct C as (C1 & C2). econstructor; eauto. }
    apply (G s [STurn 0 0 []; STurn 0 0 []; STurn 0 0 []; SRead 0; SRead 0; SStep 0; SStep 0; SStep 0; SStep 0; SStep 1; SStep 1]).
    + repeat constructor.
    + let v := eval vm_compute in s in change s with v. repeat (split; [vm_compute; discriminate|]; match goal with |- context [fst (spstep ?a ?b)] => let v := eval vm_compute in (fst (spstep a b)) in change (fst (spstep a b)) with v | _ => idtac end). exact I.
  - intros R. specialize (R (STurn 0 0 []) I). vm_compute in R. discriminate R.
Qed.

(** Two origins forwarding everything to each other never come to rest. *)
Definition ring : list spop := [SNode; SNode; SNew; SLink 0 [] [] 1 []; SLink 1 [] [] 0 []; SPublish 0 [x78] 0].
Definition circling (p : bytes) (tok0 tok1 : bool) (act0 act1 : map_of nat) (t0 t1 : list (option (bytes * nat))) : spread :=
  Spread [OSys act0 [0] [Some (OCons [] [(p, 0)] tok0 false true)] [] [Some tt] t0 [false];
          OSys act1 [0] [Some (OCons [] [] tok1 false true)] [] [Some tt] t1 [false]]
    [Link 0 0 [] 1 [] false None false; Link 1 0 [] 0 [] false None false] [] [0].
Lemma circles n : forall p tok0 tok1 act0 act1 t0 t1, works (circling p tok0 tok1 act0 act1 t0 t1) n.
Proof.
  induction n as [n IH] using (well_founded_induction lt_wf). intros p tok0 tok1 act0 act1 t0 t1.
  destruct n as [|n]; [constructor|]. apply (works_on _ (SStep 0)); [exact I|cbn; discriminate|].
  destruct n as [|n]; [constructor|]. apply (works_on _ (SStep 0)); [exact I|cbn; discriminate|].
  destruct n as [|n]; [constructor|]. apply (works_on _ (SStep 1)); [exact I|cbn; discriminate|].
  destruct n as [|n]; [constructor|]. apply (works_on _ (SStep 1)); [exact I|cbn; discriminate|].
  apply IH. lia.
Qed.
Theorem C146_refuted : exists ops s tr, sprun spread_new ops = (s, tr) /\ forall n, works s n.
Proof.
  exists ring, (fst (sprun spread_new ring)), (snd (sprun spread_new ring)). split; [apply surjective_pairing|]. intros n.
  exact (circles n [x78] true false [([x78], 0)] [] [Some ([x78], 0)] []).
Qed.
Print Assumptions C146_refuted.
