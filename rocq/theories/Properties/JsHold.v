(** C173, C174: when an endpoint of the JavaScript library gives up a subscription. *)
From Coq Require Import List Bool Arith Lia.
From Verif.Model Require Import JsHold.
From Verif.Spec Require Import JsHoldSpec.
From Verif.Proofs Require Import JsHoldP.
Import ListNotations.

(** ** C173: a subscription in use is not given up *)
(** Given up for want of readers only after one more call of [close] than there were readers. *)
Theorem C173_when : forall ops s tr a g c, hrun hs_init ops = (s, tr) -> tr = a ++ (HUnused, HStopped g) :: c ->
  exists b d, a = b ++ d /\ length (closings g b) = S (length (readers g b)).
Proof. exact stopped_when. Qed.
Print Assumptions C173_when.

(** So not at all if no reader is closed twice. *)
Theorem C173_partial : forall ops s tr g, hrun hs_init ops = (s, tr) -> closed_once tr -> ~ In (HUnused, HStopped g) tr.
Proof. exact never_stopped. Qed.
Print Assumptions C173_partial.

(** One reader closed twice: the subscription is given up.  A second one is made for the next reader. *)
Example C173_meets : snd (hrun hs_init [HSubscribe; HOk; HClose 0; HClose 0; HUnused; HSubscribe; HClone 1; HClose 2]) =
  [(HSubscribe, HReader 0 0); (HOk, HDone); (HClose 0, HClosed 0); (HClose 0, HClosed 0); (HUnused, HStopped 0);
   (HSubscribe, HReader 1 1); (HClone 1, HReader 2 1); (HClose 2, HClosed 1)].
Proof. reflexivity. Qed.
Example C173_meets_once : closed_once (snd (hrun hs_init [HSubscribe; HOk; HSubscribe; HClose 0; HClose 1; HUnused])).
Proof. intros g. destruct g as [|g]; vm_compute; [|constructor]. constructor; [intros [X|[]]; discriminate|]. constructor; [intros []|constructor]. Qed.

(** False: of three readers two leave, each calling [close] twice; the third one loses its track. *)
Theorem C173_refuted : exists ops s tr g c, hrun hs_init ops = (s, tr ++ [(HUnused, HStopped g)]) /\
  In c (readers g tr) /\ ~ In c (closings g tr) /\ (forall r, (count_occ Nat.eq_dec (closings g tr) r <= 2)%nat).
Proof.
  exists [HSubscribe; HOk; HSubscribe; HSubscribe; HClose 0; HClose 0; HClose 1; HClose 1; HUnused].
  eexists. exists (removelast (snd (hrun hs_init [HSubscribe; HOk; HSubscribe; HSubscribe; HClose 0; HClose 0; HClose 1; HClose 1; HUnused]))).
  exists O, 2. split; [vm_compute; reflexivity|]. split; [vm_compute; tauto|]. split; [vm_compute; intuition discriminate|].
  intros r. vm_compute. destruct r as [|[|r]]; lia.
Qed.
Print Assumptions C173_refuted.

(** ** C174: a subscription nobody uses is given up *)
(** The last subscription [g], confirmed: it is, once there has been one more call of [close] than there are readers. *)
Theorem C174_partial : forall ops s tr g c, hrun hs_init ops = (s, tr) -> snd (hstep s HOk) = HIdle -> snd (hstep s HSubscribe) = HReader c g ->
  length (closings g tr) = S (length (readers g tr)) -> snd (hstep s HUnused) = HStopped g.
Proof. exact stopped_then. Qed.
Print Assumptions C174_partial.
Example C174_meets : let (s, tr) := hrun hs_init [HSubscribe; HOk; HSubscribe; HClose 0; HClose 0; HClose 1] in
  snd (hstep s HOk) = HIdle /\ snd (hstep s HSubscribe) = HReader 2 0 /\ length (closings 0 tr) = S (length (readers 0 tr)).
Proof. vm_compute. auto. Qed.

(** False, and never true if each reader is closed once ([C173_partial]). *)
Theorem C174_refuted : exists ops s tr g, hrun hs_init ops = (s, tr) /\ In (HOk, HDone) tr /\ abandoned tr g /\ closed_once tr /\
  snd (hstep s HUnused) = HIdle.
Proof.
  exists [HSubscribe; HOk; HClose 0]. eexists. eexists. exists O. split; [vm_compute; reflexivity|]. split; [vm_compute; tauto|].
  split; [|split; [|reflexivity]].
  - split; [vm_compute; discriminate|]. split; [vm_compute; tauto|]. intros o. vm_compute. intuition discriminate.
  - intros [|g]; vm_compute; [constructor; [intros []|constructor]|constructor].
Qed.
Print Assumptions C174_refuted.
