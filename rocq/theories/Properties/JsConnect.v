(** C178-C182: the connection of a web page, which reconnects by itself. *)
From Coq Require Import NArith List Bool Arith Lia.
From Verif.Model Require Import JsConnect.
From Verif.Spec Require Import JsConnectSpec.
From Verif.Proofs Require Import JsConnectP.
Import ListNotations.
Open Scope nat_scope.

(** The defaults (connection.ts:40-42) *)
Definition dflt : jconf := JConf true 1000 30000.

(** ** C178: waits grow twofold up to the maximum and start anew after a success *)
Theorem C178_backoff : forall f ops s a o x c, jf_reload f = true -> jc_run f (jc_init f) ops = (s, a ++ (o, x) :: c) ->
  (failure o /\ x <> None -> x = Some [EWait (backoff f (fails a))]) /\
  (forall evs d, x = Some evs -> In (EWait d) evs -> failure o).
Proof. exact waits. Qed.
Print Assumptions C178_backoff.
Example C178_meets : map snd (snd (jc_run dflt (jc_init dflt)
    [JcUrl (Some 7); JcFailed 0; JcTimer 0; JcFailed 1; JcTimer 1; JcConnected 2; JcLost 2; JcTimer 2; JcFailed 3])) =
  [Some [EConnect 0 7]; Some [EWait 1000]; Some [EConnect 1 7]; Some [EWait 2000]; Some [EConnect 2 7]; Some []; Some [EWait 1000];
   Some [EConnect 3 7]; Some [EWait 2000]] /\ backoff dflt 4 = 16000%N /\ backoff dflt 5 = 30000%N /\ backoff dflt 50 = 30000%N.
Proof. vm_compute. auto. Qed.

(** ** C179: it never gives up *)
(** The last attempt is to the URL that was set last.  It is going on, or its connection is open, or a timer is set that makes
    the next attempt.  Missing: the peer may have closed the connection in an orderly way. *)
Theorem C179_partial : forall f ops s tr u, jf_reload f = true -> jc_run f (jc_init f) ops = (s, tr) -> ~ was_closed tr -> url_of tr = Some u ->
  exists c k, tries tr = c ++ [(k, u)] /\ (trying tr k \/ open tr k \/ happened tr (JcGone k) \/
    exists i evs, snd (jc_step f s (JcTimer i)) = Some evs /\ In (EConnect (S k) u) evs).
Proof. exact keeps_on. Qed.
Print Assumptions C179_partial.
Example C179_meets : let (s, tr) := jc_run dflt (jc_init dflt) [JcUrl (Some 7); JcFailed 0; JcUrl (Some 8); JcFailed 1; JcTimer 0; JcFailed 2] in
  url_of tr = Some 8 /\ tries tr = [(0, 7); (1, 8); (2, 8)] /\ snd (jc_step dflt s (JcTimer 2)) = Some [EConnect 3 8] /\ jc_dead s = false.
Proof. vm_compute. auto. Qed.

(** False: after an orderly close by the peer nothing happens any more, and the page shows "connected". *)
Theorem C179_refuted : exists ops s tr u, jc_run dflt (jc_init dflt) ops = (s, tr) /\ ~ was_closed tr /\ url_of tr = Some u /\
  (forall k, ~ trying tr k /\ ~ open tr k) /\ jc_status s = JConnected /\
  (forall o, o <> JcClose -> (forall v, o <> JcUrl v) -> snd (jc_step dflt s o) = None).
Proof.
  exists [JcUrl (Some 7); JcConnected 0; JcGone 0]. eexists. eexists. exists 7. split; [vm_compute; reflexivity|].
  split; [intros (x & H); cbn in H; intuition discriminate|]. split; [reflexivity|]. split; [|split; [reflexivity|]].
  - intros k. split.
    + intros ((u & H) & N & _). cbn in H. destruct H as [H|[]]. injection H as <- <-. apply N. exists []. cbn. auto.
    + intros ((e & H) & _ & N & _). cbn in H. destruct H as [H|[H|[H|[]]]]; try discriminate. injection H as <- <-. apply N. exists []. cbn. auto.
  - intros o N1 N2. destruct o as [v|k|k|k|k|i|]; try congruence; try (now destruct (N2 v)); try (destruct k as [|[|k]]; reflexivity). destruct i as [|i]; reflexivity.
Qed.
Print Assumptions C179_refuted.

(** ** C180: a connection that works is left alone *)
(** If the URL is never changed, only [close] closes a connection. *)
Theorem C180_partial : forall f u ops s a o evs c k, one_url u ops -> jc_run f (jc_init f) ops = (s, a ++ (o, Some evs) :: c) ->
  In (EShut k) evs -> o = JcClose.
Proof. exact no_teardown. Qed.
Print Assumptions C180_partial.
Example C180_meets : one_url 7 [JcUrl (Some 7); JcFailed 0; JcTimer 0; JcConnected 1; JcClose] /\
  last (snd (jc_run dflt (jc_init dflt) [JcUrl (Some 7); JcFailed 0; JcTimer 0; JcConnected 1; JcClose])) (JcClose, None) = (JcClose, Some [EShut 1]).
Proof. split; [|reflexivity]. eexists. split; [reflexivity|]. intros u' H. cbn in H. intuition discriminate. Qed.

(** False: the timer set for an attempt to an earlier URL closes the connection to the new one. *)
Theorem C180_refuted : exists ops s tr i k u, jc_run dflt (jc_init dflt) ops = (s, tr ++ [(JcTimer i, Some [EShut k; EConnect (S k) u])]) /\
  open tr k /\ In (k, u) (tries tr) /\ url_of tr = Some u.
Proof.
  exists [JcUrl (Some 7); JcFailed 0; JcUrl (Some 8); JcConnected 1; JcTimer 0]. eexists.
  exists [(JcUrl (Some 7), Some [EConnect 0 7]); (JcFailed 0, Some [EWait 1000]); (JcUrl (Some 8), Some [EConnect 1 8]); (JcConnected 1, Some [])].
  exists 0, 1, 8. split; [vm_compute; reflexivity|]. split; [|split; [vm_compute; auto|reflexivity]].
  split; [exists []; cbn; auto|]. split; [intros (e & H); cbn in H; intuition discriminate|]. split; [intros (e & H); cbn in H; intuition discriminate|].
  intros (o & e & H & I). cbn in H. repeat (destruct H as [H|H]; [injection H as <- <-; cbn in I; intuition discriminate|]). exact H.
Qed.
Print Assumptions C180_refuted.

(** ** C181: what is shown is how it is *)
(** [established] is the connection that is open, to the URL that was set, and [status] says so.  Missing: changed URLs, orderly closes. *)
Theorem C181_partial : forall f u ops s tr, one_url u ops -> jc_run f (jc_init f) ops = (s, tr) -> ~ was_closed tr -> (forall k, ~ happened tr (JcGone k)) ->
  (forall k, jc_est s = Some k <-> open tr k) /\ (jc_status s = JConnected <-> exists k, open tr k) /\
  (jc_status s = JConnecting <-> exists k, trying tr k) /\ (forall k, trying tr k \/ open tr k -> exists c, tries tr = c ++ [(k, u)]).
Proof. exact state_right. Qed.
Print Assumptions C181_partial.
Example C181_meets : let (s, tr) := jc_run dflt (jc_init dflt) [JcUrl (Some 7); JcFailed 0; JcTimer 0; JcConnected 1] in
  jc_est s = Some 1 /\ jc_status s = JConnected /\ ~ was_closed tr /\ (forall k, ~ happened tr (JcGone k)) /\ tries tr = [(0, 7); (1, 7)].
Proof.
  vm_compute. split; [reflexivity|]. split; [reflexivity|]. split; [intros (x & H); intuition discriminate|]. split; [|reflexivity].
  intros k (x & H). intuition discriminate.
Qed.

(** False: an attempt to an earlier URL that succeeds late takes the place of the connection to the new one. *)
Theorem C181_refuted : exists ops s tr k k' u u', jc_run dflt (jc_init dflt) ops = (s, tr) /\ ~ was_closed tr /\
  url_of tr = Some u /\ open tr k /\ In (k, u) (tries tr) /\ jc_est s = Some k' /\ In (k', u') (tries tr) /\ u' <> u.
Proof.
  exists [JcUrl (Some 7); JcUrl (Some 8); JcConnected 1; JcConnected 0]. eexists. eexists. exists 1, 0, 8, 7. split; [vm_compute; reflexivity|].
  split; [intros (x & H); cbn in H; intuition discriminate|]. split; [reflexivity|]. split; [|cbn; repeat split; auto; discriminate].
  split; [exists []; cbn; auto|]. split; [intros (e & H); cbn in H; intuition discriminate|]. split; [intros (e & H); cbn in H; intuition discriminate|].
  intros (o & e & H & I). cbn in H. repeat (destruct H as [H|H]; [injection H as <- <-; cbn in I; intuition discriminate|]). exact H.
Qed.
Print Assumptions C181_refuted.
(** An attempt to an earlier URL that fails late hides the connection to the new one, which stays open: nothing is established and "disconnected"
    is shown, until the timer closes nothing and connects once more. *)
Theorem C181_hidden_refuted : exists ops s tr k u, jc_run dflt (jc_init dflt) ops = (s, tr) /\
  url_of tr = Some u /\ open tr k /\ In (k, u) (tries tr) /\ jc_est s = None /\ jc_status s = JDisconnected /\
  snd (jc_step dflt s (JcTimer 0)) = Some [EConnect (S k) u].
Proof.
  exists [JcUrl (Some 7); JcUrl (Some 8); JcConnected 1; JcFailed 0]. eexists. eexists. exists 1, 8. split; [vm_compute; reflexivity|].
  split; [reflexivity|]. split; [|cbn; repeat split; auto].
  split; [exists []; cbn; auto|]. split; [intros (e & H); cbn in H; intuition discriminate|]. split; [intros (e & H); cbn in H; intuition discriminate|].
  intros (o & e & H & I). cbn in H. repeat (destruct H as [H|H]; [injection H as <- <-; cbn in I; intuition discriminate|]). exact H.
Qed.
Print Assumptions C181_hidden_refuted.

(** ** C182: [close] closes *)
(** If no attempt is going on at the time: nothing is open, and nothing is tried any more.  Missing: changed URLs. *)
Theorem C182_partial : forall f u ops s a x c, one_url u ops -> jc_run f (jc_init f) ops = (s, a ++ (JcClose, x) :: c) ->
  ~ was_closed a -> (forall k, ~ trying a k) -> jc_est s = None /\ (forall k, ~ open (a ++ (JcClose, x) :: c) k) /\ tries c = [].
Proof. exact closed_down. Qed.
Print Assumptions C182_partial.
Example C182_meets : let (s, tr) := jc_run dflt (jc_init dflt) [JcUrl (Some 7); JcFailed 0; JcClose; JcTimer 0] in
  tr = [(JcUrl (Some 7), Some [EConnect 0 7]); (JcFailed 0, Some [EWait 1000]); (JcClose, Some []); (JcTimer 0, Some [])] /\
  (forall k, ~ trying (firstn 2 tr) k).
Proof.
  vm_compute. split; [reflexivity|]. intros k ((u & H) & _ & N). destruct H as [H|[]]. injection H as <- <-. apply N. eexists. right. left. reflexivity.
Qed.

(** False: an attempt that is going on ends in an open connection, which nothing closes. *)
Theorem C182_refuted : exists ops s tr k, jc_run dflt (jc_init dflt) (JcUrl (Some 7) :: JcClose :: ops) = (s, tr) /\ was_closed tr /\
  open tr k /\ jc_est s = Some k /\ jc_status s = JConnected /\ snd (jc_step dflt s JcClose) = Some [].
Proof.
  exists [JcConnected 0]. eexists. eexists. exists 0. split; [vm_compute; reflexivity|]. split; [exists (Some []); cbn; auto|]. split; [|repeat split; reflexivity].
  split; [exists []; cbn; auto|]. split; [intros (e & H); cbn in H; intuition discriminate|]. split; [intros (e & H); cbn in H; intuition discriminate|].
  intros (o & e & H & I). cbn in H. repeat (destruct H as [H|H]; [injection H as <- <-; cbn in I; intuition discriminate|]). exact H.
Qed.
Print Assumptions C182_refuted.
