(** C175-C177: the loop of the relay that lets clients in. *)
From Coq Require Import List Bool Arith Lia.
From Coq Require Import Init.Byte.
From Verif.Model Require Import Base Map Auth Accept.
From Verif.Spec Require Import AcceptSpec.
From Verif.Proofs Require Import AcceptP.
From Verif.Properties Require Import Auth.
Import ListNotations.
Open Scope nat_scope.

(** ** C175: every client is dealt with once, as its own token says *)
(** Whoever is dealt with has ended its handshake before, and what is done depends on its result alone. *)
Theorem C175_own : forall (url token : Type) (validate : url -> res (option token)) ops s a o x c k,
  ac_run validate ac_init ops = (s, a ++ (o, x) :: c) -> dealt1 (o, x) = [k] ->
  exists r, shaken a k r /\ x = treatment validate k (length (ids a)) r.
Proof. exact @own. Qed.
Print Assumptions C175_own.

(** Nobody twice; connections are numbered consecutively, handshakes begin in the order of arrival. *)
Theorem C175_once : forall (url token : Type) (validate : url -> res (option token)) ops s tr, ac_run validate ac_init ops = (s, tr) ->
  NoDup (dealt tr) /\ (forall k r r', shaken tr k r -> shaken tr k r' -> r = r') /\
  begun tr = seq 0 (length (begun tr)) /\ ids tr = seq 0 (length (ids tr)).
Proof. exact @once. Qed.
Print Assumptions C175_once.

(** Nobody has to wait for another one: while the relay runs, whose handshake has ended can be dealt with at once, and so can
    the next one that has reached the endpoint. *)
Theorem C175_ready : forall (url token : Type) (validate : url -> res (option token)) ops s tr k r,
  ac_run validate ac_init ops = (s, tr) -> ~ ended tr -> shaken tr k r -> ~ In k (dealt tr) ->
  snd (ac_step validate s (AcPoll (BShake k))) = treatment validate k (length (ids tr)) r.
Proof. exact @ready. Qed.
Print Assumptions C175_ready.
Theorem C175_ready_new : forall (url token : Type) (validate : url -> res (option token)) ops s tr,
  ac_run validate ac_init ops = (s, tr) -> ~ ended tr -> ~ In (AcLose, AcDone) tr -> length (begun tr) < arrived tr ->
  snd (ac_step validate s (AcPoll BEndpoint)) = AcBegun (length (begun tr)).
Proof. exact @ready_new. Qed.
Print Assumptions C175_ready_new.

(** The loop waits only if all who arrived have been taken up and all whose handshake has ended have been dealt with. *)
Theorem C175_rest : forall (url token : Type) (validate : url -> res (option token)) ops s tr b,
  ac_run validate ac_init ops = (s, tr) -> snd (ac_step validate s (AcPoll b)) = AcPending ->
  begun tr = seq 0 (arrived tr) /\ (forall k r, shaken tr k r -> In k (dealt tr)).
Proof. exact @at_rest. Qed.
Print Assumptions C175_rest.

(** Three clients; the first one never ends its handshake, the second one's token is refused, the third one is served. *)
Definition pick (n : nat) : res (option nat) := match n with 0 => Panic | 1 => Val None | _ => Val (Some n) end.
Definition three : list (acop nat) :=
  [AcArrive; AcArrive; AcArrive; AcPoll BEndpoint; AcPoll BEndpoint; AcPoll BEndpoint; AcShake 2 (Some 7); AcShake 1 (Some 1);
   AcPoll (BShake 2); AcPoll (BShake 1)].
Example C175_meets : let (s, tr) := ac_run pick ac_init three in
  skipn 8 tr = [(AcPoll (BShake 2), AcServed 2 0 7); (AcPoll (BShake 1), AcRefused 1)] /\ arrived tr = 3 /\
  snd (ac_step pick s (AcPoll BSignal)) = AcPending.
Proof. vm_compute. auto. Qed.
Example C175_meets_ready : let (s, tr) := ac_run pick ac_init (firstn 8 three) in
  ~ ended tr /\ shaken tr 1 (Some 1) /\ ~ In 1 (dealt tr) /\ ~ In (AcLose, AcDone) tr /\ length (begun (firstn 5 tr)) < arrived (firstn 5 tr).
Proof.
  vm_compute. split; [|split; [tauto|split; [tauto|split; [intuition discriminate|lia]]]].
  intros (o & x & J & E). repeat (destruct J as [J|J]; [injection J as <- <-; exact E|]). exact J.
Qed.

(** ** C176: the relay goes on until it is told to end *)
(** It ends only on a signal, or if the endpoint fails, or if [validate] panics on the URL of a client. *)
Theorem C176_partial : forall (url token : Type) (validate : url -> res (option token)) ops s tr,
  ac_run validate ac_init ops = (s, tr) -> ended tr ->
  told_to_end tr \/ exists k u, In k (dealt tr) /\ shaken tr k (Some u) /\ validate u = Panic.
Proof. exact @why_ended. Qed.
Print Assumptions C176_partial.
(** So it goes on if a key guards every directory. *)
Theorem C176_guarded_partial : forall j a ops s tr, au_key a <> None -> (forall dir, lookup dir (au_paths a) <> Some None) ->
  ac_run (validate j a) ac_init ops = (s, tr) -> ended tr -> told_to_end tr.
Proof.
  intros j a ops s tr K P H E. destruct (why_ended _ _ _ _ H E) as [T|(k & u & _ & _ & V)]; [exact T|].
  exfalso. exact (C49_no_panic_partial j a u K P V).
Qed.
Print Assumptions C176_guarded_partial.
Example C176_meets : let (s, tr) := ac_run (validate toy (Auth (Some kroot) [(demo, Some kdemo)])) ac_init
    [AcPoll BSignal; AcSignal; AcPoll BSignal] in ended tr /\ In (AcSignal, AcHeard) tr.
Proof. vm_compute. split; [|auto]. exists (AcPoll BSignal), AcStopped. split; [auto|exact I]. Qed.

(** False: with a public directory one client ends it for all. *)
Theorem C176_refuted : exists j a ops s tr, ac_run (validate j a) ac_init ops = (s, tr) /\ ended tr /\ ~ told_to_end tr /\
  exists k id t, In (AcPoll (BShake k), AcServed k id t) tr.
Proof.
  exists toy, (Auth None []).
  exists [AcArrive; AcArrive; AcPoll BEndpoint; AcPoll BEndpoint; AcShake 0 (Some demo); AcPoll (BShake 0); AcShake 1 (Some dot_jwt); AcPoll (BShake 1)].
  eexists. eexists. split; [vm_compute; reflexivity|]. split.
  { exists (AcPoll (BShake 1)), (AcCrashed 1). split; [|exact I]. cbn. tauto. }
  split; [unfold told_to_end; cbn; intuition discriminate|]. exists 0, 0. eexists. cbn. do 5 right. left. reflexivity.
Qed.
Print Assumptions C176_refuted.

(** ** C177: a signal ends the relay *)
(** A signal is heard exactly if the loop waits at that moment; between two rounds it is lost, before the first one it ends the process. *)
Theorem C177_heard_exact : forall (url token : Type) (validate : url -> res (option token)) ops s tr,
  ac_run validate ac_init ops = (s, tr) -> ~ ended tr ->
  snd (ac_step validate s AcSignal) = match last_round tr with None => AcKilled | Some AcPending => AcHeard | Some _ => AcMissed end.
Proof. exact @heard_exact. Qed.
Print Assumptions C177_heard_exact.

(** If it waits and nothing else happens, the relay ends, and can do nothing else. *)
Theorem C177_partial : forall (url token : Type) (validate : url -> res (option token)) ops s tr b0 s1 s2 x,
  ac_run validate ac_init ops = (s, tr) -> ac_step validate s (AcPoll b0) = (s1, AcPending) -> ac_step validate s1 AcSignal = (s2, x) ->
  x = AcHeard /\ snd (ac_step validate s2 (AcPoll BSignal)) = AcStopped /\
  forall b, snd (ac_step validate s2 (AcPoll b)) = AcStopped \/ snd (ac_step validate s2 (AcPoll b)) = AcNothing.
Proof. exact @signal_ends. Qed.
Print Assumptions C177_partial.
(** It can be passed over only for the sake of a client that is ready at the same time. *)
Theorem C177_passed_partial : forall (url token : Type) (validate : url -> res (option token)) ops s tr s1 b s2 x,
  ac_run validate ac_init ops = (s, tr) -> ac_step validate s AcSignal = (s1, AcHeard) -> ac_step validate s1 (AcPoll b) = (s2, x) ->
  x = AcNothing \/ x = AcStopped \/ (exists k, x = AcBegun k \/ In k (dealt1 (@AcPoll url b, x))).
Proof. exact @heard_then. Qed.
Print Assumptions C177_passed_partial.
Example C177_meets : let (s, tr) := ac_run pick ac_init (three ++ [AcPoll BSignal; AcSignal]) in
  skipn 10 tr = [(AcPoll BSignal, AcPending); (AcSignal, AcHeard)] /\ ac_over s = false.
Proof. vm_compute. auto. Qed.

(** False: the signal comes while a client is ready too; the loop takes the client, and the signal is forgotten with the round. *)
Theorem C177_refuted : exists ops s tr, ac_run pick ac_init ops = (s, tr ++ [(AcPoll BSignal, AcPending)]) /\
  In (AcSignal, AcHeard) tr /\ ~ ended tr.
Proof.
  exists [AcPoll BSignal; AcSignal; AcArrive; AcPoll BEndpoint; AcPoll BSignal]. eexists.
  exists [(AcPoll BSignal, AcPending); (AcSignal, AcHeard); (AcArrive, AcDone); (AcPoll BEndpoint, AcBegun 0)].
  split; [vm_compute; reflexivity|]. split; [cbn; auto|].
  intros (o & x & J & E). cbn in J. repeat (destruct J as [J|J]; [injection J as <- <-; exact E|]). exact J.
Qed.
Print Assumptions C177_refuted.
