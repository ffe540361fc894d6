(** C67, C81-C84: the video renderer of the web player. *)
From Coq Require Import NArith List Lia Bool Sorted.
From Verif.Model Require Import Render.
From Verif.Spec Require Import RenderSpec.
From Verif.Proofs Require RenderP.
Import ListNotations.
Open Scope N_scope.

Local Notation fr t := (VFrame (t * 1000000) t).
Definition trace (ops : list vop) : vevents := snd (vrun render_new ops).

Lemma aliveb tr : forallb (fun e => match snd e with VEmpty | VOverflow => false | _ => true end) tr = true -> alive tr.
Proof.
  intro H. rewrite forallb_forall in H. apply Forall_forall. intros e He. specialize (H e He). destruct (snd e); trivial; discriminate.
Qed.
Lemma in_timeb ops : forallb (fun o => match o with VDraw now => now + 2 ^ 32 * 10 ^ 6 <? duration_max
                             | VLatency ms => ms <? 2 ^ 32 | _ => true end) ops = true -> in_time ops.
Proof.
  intro H. rewrite forallb_forall in H. apply Forall_forall. intros o Ho. specialize (H o Ho).
  destruct o; trivial; apply N.ltb_lt; exact H.
Qed.
Local Ltac live := apply aliveb; vm_compute; reflexivity.
Local Ltac timely := apply in_timeb; vm_compute; reflexivity.
Local Ltac comp := vm_compute; solve [reflexivity | discriminate].

(** ** C67: drawing never fails *)

(** Exactly when an animation callback panics for want of a frame: it was asked for, the page paused after
    the newest frame, and then resumed or set the latency. *)
Theorem C67_exact : forall ops s tr now, vrun render_new ops = (s, tr) -> alive tr ->
  (snd (vstep s (VDraw now)) = VEmpty <-> pending tr /\ playing tr /\ emptied tr).
Proof. exact RenderP.draw_exact. Qed.
Print Assumptions C67_exact.

(** No other event panics. *)
Theorem C67_only_draw : forall s o, snd (vstep s o) = VEmpty \/ snd (vstep s o) = VOverflow -> exists now, o = VDraw now.
Proof. exact RenderP.only_draw. Qed.
Print Assumptions C67_only_draw.

(** A page that never pauses is safe.  Missing for the full claim: pages that do. *)
Theorem C67_no_pause_partial : forall ops, in_time ops -> ~ In (VPause true) ops -> alive (snd (vrun render_new ops)).
Proof. exact RenderP.no_pause. Qed.
Print Assumptions C67_no_pause_partial.

(** The clock does not make it panic either. *)
Theorem C67_in_time : forall ops, in_time ops -> forall o, ~ In (o, VOverflow) (snd (vrun render_new ops)).
Proof. exact RenderP.never_overflow. Qed.
Print Assumptions C67_in_time.

(** Pause, then resume, before the next animation frame. *)
Theorem C67_resume_refuted : exists ops, in_time ops /\ ~ alive (trace ops).
Proof.
  exists [VCanvas true; VPause false; VPush (fr 1); VPause true; VPause false; VDraw 20].
  split; [timely|]. intro H. apply Forall_forall with (x := (VDraw 20, VEmpty)) in H; [exact H|].
  vm_compute. auto 7.
Qed.
Print Assumptions C67_resume_refuted.
(** Pause, then set the latency, before the next animation frame. *)
Theorem C67_latency_refuted : exists ops, in_time ops /\ ~ alive (trace ops).
Proof.
  exists [VCanvas true; VPause false; VPush (fr 1); VPause true; VLatency 50; VDraw 20].
  split; [timely|]. intro H. apply Forall_forall with (x := (VDraw 20, VEmpty)) in H; [exact H|].
  vm_compute. auto 7.
Qed.
Print Assumptions C67_latency_refuted.

(** A session with a buffer of 50 ms, hidden for a while, that does not pause. *)
Definition session : list vop :=
  [VCanvas true; VLatency 50; VPush (fr 0); VDraw 1000000; VPush (fr 33); VVisible false; VDraw 17000000; VPush (fr 66);
   VVisible true; VDraw 60000000; VPush (fr 100); VTimeout; VDraw 90000000].
Example C67_example : in_time session /\ ~ In (VPause true) session /\ pending (trace session) /\
  shown (trace session) = [fr 0; fr 0; fr 33; fr 66].
Proof.
  split; [timely|]. split; [cbn; intuition discriminate|]. split; comp.
Qed.

(** ** C81: frames are shown in the order they were decoded *)

(** The frames shown are decoded frames, at positions that never go back. *)
Theorem C81_order : forall ops, alive (snd (vrun render_new ops)) ->
  exists js, StronglySorted le js /\
    Forall2 (fun j f => nth_error (decoded (snd (vrun render_new ops))) j = Some f) js (shown (snd (vrun render_new ops))).
Proof. exact RenderP.shown_order. Qed.
Print Assumptions C81_order.
Example C81_example : alive (trace session) /\ decoded (trace session) = [fr 0; fr 33; fr 66; fr 100].
Proof. split; [live|comp]. Qed.

(** ** C82: a paused video shows nothing *)

(** A frame is shown only by a callback that was asked for, while playing, with a canvas. *)
Theorem C82_playing_partial : forall ops s tr o, vrun render_new ops = (s, tr) -> alive tr ->
  shows (snd (vstep s o)) <> [] ->
  (exists now, o = VDraw now) /\ pending tr /\ playing tr /\ ~ emptied tr /\ has_canvas tr.
Proof. exact RenderP.shown_playing. Qed.
Print Assumptions C82_playing_partial.

(** Setting the latency ends the pause. *)
Theorem C82_refuted : exists ops s tr now, vrun render_new ops = (s, tr) /\ in_time ops /\ alive tr /\
  user_paused tr /\ shows (snd (vstep s (VDraw now))) <> [].
Proof.
  set (ops := [VCanvas true; VPause true; VLatency 50; VPush (fr 1)]).
  exists ops, (fst (vrun render_new ops)), (trace ops), 5. split; [apply surjective_pairing|].
  split; [timely|].
  split; [live|]. split; comp.
Qed.
Print Assumptions C82_refuted.

Example C82_example :
  let ops := [VCanvas true; VPause false; VPush (fr 1); VPush (fr 2)] in
  alive (trace ops) /\ shows (snd (vstep (fst (vrun render_new ops)) (VDraw 9))) = [fr 2].
Proof. split; [live|comp]. Qed.

(** ** C83: a visible video that plays shows what was decoded *)

(** A frame decoded while playing and visible has a callback on its way. *)
Theorem C83_callback : forall ops s tr f s' x, vrun render_new ops = (s, tr) -> alive tr ->
  vstep s (VPush f) = (s', x) -> playing tr -> ~ hidden tr -> pending (tr ++ [(VPush f, x)]).
Proof. exact RenderP.push_pending. Qed.
Print Assumptions C83_callback.

(** The callback shows one frame. *)
Theorem C83_shows : forall ops s tr now, vrun render_new ops = (s, tr) -> alive tr ->
  pending tr -> playing tr -> ~ emptied tr -> has_canvas tr -> snd (vstep s (VDraw now)) <> VOverflow ->
  exists g, shows (snd (vstep s (VDraw now))) = [g].
Proof. exact RenderP.callback_shows. Qed.
Print Assumptions C83_shows.

(** When no callback is on its way, the newest frame is on the canvas.  Missing for the full claim: the two
    cases below, in which [playing] or [kicked] fails. *)
Theorem C83_rest_partial : forall ops s tr d, vrun render_new ops = (s, tr) -> alive tr -> one_canvas ops ->
  playing tr -> ~ hidden tr -> ~ emptied tr -> kicked tr -> ~ pending tr -> newest tr d ->
  exists l, shown tr = l ++ [d].
Proof. exact RenderP.rest_newest. Qed.
Print Assumptions C83_rest_partial.

(** Not pausing is documented as the default (rs/hang-wasm/src/watch/message.rs:27-29), yet without a
    command to resume nothing is shown, however many frames are decoded. *)
Theorem C83_default_refuted : forall fs, exists ops,
  decoded (trace ops) = fs /\ alive (trace ops) /\ one_canvas ops /\ ~ user_paused (trace ops) /\ ~ hidden (trace ops) /\
  shown (trace ops) = [] /\ ~ pending (trace ops).
Proof.
  intro fs. exists (VCanvas true :: map VPush fs).
  assert (H : forall fs s, vr_dead s = false -> vr_state s = Idle ->
    exists s', vr_dead s' = false /\ vr_state s' = Idle /\
      vrun s (map VPush fs) = (s', map (fun f => (VPush f, VOk [])) fs)).
  { clear. induction fs as [|f fs IH]; intros s H1 H2; [exists s; auto|].
    cbn [map vrun]. unfold vstep. rewrite H1. unfold push, trim_buffer, schedule. cbn [vr_queue vwith_queue vr_latency].
    destruct (vr_queue s ++ [f]) as [|y q].
    - cbn [vr_sched vwith_ref vwith_queue vr_state]. rewrite H2. cbn [active negb].
      set (s1 := vwith_ref _ _). destruct (IH s1) as (s2 & A & B & C); [exact H1|exact H2|].
      exists s2. destruct (vr_sched s); rewrite C; auto.
    - destruct (trim (vr_latency s) (y :: q)) as [q' b].
      set (s1 := if b then _ else _). assert (S : vr_dead s1 = false /\ vr_state s1 = Idle) by (subst s1; destruct b; auto).
      destruct S as [S1 S2]. rewrite S2. cbn [active negb].
      destruct (IH s1 S1 S2) as (s2 & A & B & C). exists s2. destruct (vr_sched s1); rewrite C; auto. }
  destruct (H fs (vwith_canvas render_new true) eq_refl eq_refl) as (s' & _ & _ & E).
  assert (T : trace (VCanvas true :: map VPush fs) = (VCanvas true, VOk []) :: map (fun f => (VPush f, VOk [])) fs).
  { unfold trace. change (vrun render_new (VCanvas true :: map VPush fs)) with
      (let (s, tr) := vrun (vwith_canvas render_new true) (map VPush fs) in (s, (VCanvas true, VOk []) :: tr)).
    rewrite E. reflexivity. }
  assert (L : forall (g : vop * vout -> option bool) l, (forall f, g (VPush f, VOk []) = None) ->
    latest g (map (fun f => (VPush f, VOk [])) l) = None).
  { intros g l Hg. induction l as [|f l IHl]; [reflexivity|]. cbn [map latest]. rewrite IHl. apply Hg. }
  rewrite T. split; [|split; [|split; [|split; [|split; [|split]]]]].
  - cbn. clear. induction fs as [|f fs IH]; [reflexivity|]. cbn. f_equal. exact IH.
  - constructor; [exact I|]. clear. induction fs as [|f fs IH]; constructor; [exact I|exact IH].
  - exists (map VPush fs). split; [reflexivity|]. clear. induction fs as [|f fs IH]; constructor; [exact I|exact IH].
  - unfold user_paused, yes. cbn [latest]. rewrite L by reflexivity. discriminate.
  - unfold hidden, yes. cbn [latest]. rewrite L by reflexivity. discriminate.
  - cbn. clear. induction fs as [|f fs IH]; [reflexivity|]. exact IH.
  - unfold pending, yes. cbn [latest]. rewrite L by reflexivity. discriminate.
Qed.
Print Assumptions C83_default_refuted.

(** A latency set after the newest frame: playing, visible, a frame decoded, no callback on its way, and
    nothing shown. *)
Theorem C83_latency_refuted : exists ops, in_time ops /\ alive (trace ops) /\ one_canvas ops /\ playing (trace ops) /\
  ~ user_paused (trace ops) /\ ~ hidden (trace ops) /\ decoded (trace ops) <> [] /\ shown (trace ops) = [] /\ ~ pending (trace ops).
Proof.
  exists [VCanvas true; VPush (fr 1); VPush (fr 2); VLatency 0].
  split; [timely|].
  split; [live|].
  split; [eexists; split; [reflexivity|]; repeat (constructor; [exact I|]); constructor|].
  split; [comp|]. split; [comp|]. split; [comp|]. split; [comp|]. split; comp.
Qed.
Print Assumptions C83_latency_refuted.

Example C83_example :
  let ops := [VCanvas true; VPause false; VPush (fr 1); VPush (fr 2); VDraw 9] in
  alive (trace ops) /\ one_canvas ops /\ playing (trace ops) /\ ~ hidden (trace ops) /\ ~ emptied (trace ops) /\
  kicked (trace ops) /\ ~ pending (trace ops) /\ newest (trace ops) (fr 2) /\ shown (trace ops) = [fr 2].
Proof.
  split; [live|].
  split; [eexists; split; [reflexivity|]; repeat (constructor; [exact I|]); constructor|].
  split; [comp|]. split; [comp|]. split; [comp|]. split; [comp|]. split; [comp|].
  split; [exists [fr 1]; comp|comp].
Qed.

(** ** C84: the picture is no older than the latency asked for *)

(** Once a frame was decoded after the newest change of the latency, a frame shown is at most that much older
    than the newest frame. *)
Theorem C84_latency_partial : forall ops s tr o g d, vrun render_new ops = (s, tr) -> alive tr -> in_order tr -> settled tr ->
  In g (shows (snd (vstep s o))) -> newest tr d -> vf_ts d <= vf_ts g + asked_latency tr.
Proof. exact RenderP.shown_recent. Qed.
Print Assumptions C84_latency_partial.

Lemma in_order_two tr f g : decoded tr = [f; g] -> vf_ts f <= vf_ts g -> in_order tr.
Proof.
  intros E H i j x y. rewrite E. destruct i as [|[|[|i]]], j as [|[|[|j]]]; cbn; intros A B C; try discriminate;
    injection A as <-; injection B as <-; lia.
Qed.

(** Right after the latency was lowered it may be older. *)
Theorem C84_lowered_refuted : exists ops s tr now g d, vrun render_new ops = (s, tr) /\ in_time ops /\ alive tr /\ in_order tr /\
  shows (snd (vstep s (VDraw now))) = [g] /\ newest tr d /\ vf_ts g + asked_latency tr < vf_ts d.
Proof.
  set (ops := [VCanvas true; VLatency 1000; VPush (fr 0); VPush (fr 500); VLatency 50]).
  exists ops, (fst (vrun render_new ops)), (trace ops), 5, (fr 0), (fr 500). split; [apply surjective_pairing|].
  split; [timely|].
  split; [live|].
  split; [apply (in_order_two _ (fr 0) (fr 500)); [comp|cbn; lia]|].
  split; [comp|]. split; [exists [fr 0]; comp|comp].
Qed.
Print Assumptions C84_lowered_refuted.

Example C84_example :
  let ops := [VCanvas true; VLatency 50; VPush (fr 0); VPush (fr 33)] in
  alive (trace ops) /\ in_order (trace ops) /\ settled (trace ops) /\ newest (trace ops) (fr 33) /\
  shows (snd (vstep (fst (vrun render_new ops)) (VDraw 9))) = [fr 0].
Proof.
  split; [live|].
  split; [apply (in_order_two _ (fr 0) (fr 33)); [comp|cbn; lia]|].
  split; [comp|]. split; [exists [fr 0]; comp|comp].
Qed.
