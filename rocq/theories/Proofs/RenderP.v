(** The renderer: what its state says about the events so far. *)
From Coq Require Import NArith Arith List Lia Bool Sorted.
From Verif.Model Require Import Render.
From Verif.Spec Require Import RenderSpec.
Import ListNotations.
Open Scope nat_scope.

Lemma latest_snoc f tr e : latest f (tr ++ [e]) = match f e with Some b => Some b | None => latest f tr end.
Proof.
  induction tr as [|d tr IH]; cbn [app latest]; [destruct (f e); reflexivity|].
  rewrite IH. destruct (f e); [reflexivity|]. reflexivity.
Qed.
Lemma decoded_snoc tr e : decoded (tr ++ [e]) = decoded tr ++ match fst e with VPush f => [f] | _ => [] end.
Proof. unfold decoded. rewrite flat_map_app. cbn [flat_map]. rewrite app_nil_r. reflexivity. Qed.
Lemma shown_snoc tr e : shown (tr ++ [e]) = shown tr ++ shows (snd e).
Proof. unfold shown. rewrite flat_map_app. cbn [flat_map]. rewrite app_nil_r. reflexivity. Qed.
Lemma asked_snoc tr e : asked_latency (tr ++ [e]) =
  match fst e with VLatency ms => (ms * 10 ^ 6)%N | _ => asked_latency tr end.
Proof.
  unfold asked_latency. rewrite rev_app_distr. cbn [rev app flat_map]. destruct (fst e); reflexivity.
Qed.

Lemma vrun_app s a b : vrun s (a ++ b) =
  (fst (vrun (fst (vrun s a)) b), snd (vrun s a) ++ snd (vrun (fst (vrun s a)) b)).
Proof.
  revert s. induction a as [|o a IH]; intro s; cbn [app vrun fst snd].
  - destruct (vrun s b); reflexivity.
  - destruct (vstep s o) as [s1 x]. rewrite IH. destruct (vrun s1 a) as [s2 tr]. reflexivity.
Qed.
Lemma vrun_snoc s a o : vrun s (a ++ [o]) =
  (fst (vstep (fst (vrun s a)) o), snd (vrun s a) ++ [(o, snd (vstep (fst (vrun s a)) o))]).
Proof. rewrite vrun_app. cbn [vrun]. destruct (vstep (fst (vrun s a)) o). reflexivity. Qed.

(** ** Queues *)
Lemma trim_suffix lat q : exists n, fst (trim lat q) = skipn n q.
Proof.
  induction q as [|f r IH]; [exists 0; reflexivity|]. cbn [trim vduration].
  destruct (_ <? _)%N; [|exists 0; reflexivity]. destruct IH as [n E]. exists (S n). exact E.
Qed.
Lemma trim_nonempty lat q : q <> [] -> fst (trim lat q) <> [].
Proof.
  induction q as [|f r IH]; [congruence|]. intros _. cbn [trim vduration].
  destruct (N.ltb_spec lat (vf_ts (last (f :: r) f) - vf_ts f)) as [H|H]; [|discriminate].
  apply IH. intros ->. cbn in H. lia.
Qed.
Lemma trim_duration lat q d : vduration (fst (trim lat q)) = Some d -> (d <= lat)%N.
Proof.
  induction q as [|f r IH]; [discriminate|]. cbn [trim].
  destruct (vduration (f :: r)) as [x|] eqn:E; [|cbn in E; discriminate].
  destruct (N.ltb_spec lat x); [exact IH|]. cbn [fst]. rewrite E. intro H1. injection H1 as <-. exact H.
Qed.

Lemma advance_suffix el pts : forall q f g r b, advance el pts f q = (g, r, b) ->
  exists n, skipn n (f :: q) = g :: r.
Proof.
  induction q as [|x q IH]; intros f g r b; cbn [advance].
  - intro E. injection E as <- <- <-. exists 0. reflexivity.
  - destruct (_ <=? _)%N.
    + intro E. injection E as <- <- <-. exists 0. reflexivity.
    + destruct (advance el pts x q) as [[g' r'] b'] eqn:Ea. intro E. injection E as <- <- <-.
      destruct (IH _ _ _ _ Ea) as [n En]. exists (S n). exact En.
Qed.

Lemma skipn_add {A} n : forall k (l : list A), skipn n (skipn k l) = skipn (k + n) l.
Proof.
  intros k. induction k as [|k IH]; intros l; [reflexivity|]. destruct l; [rewrite !skipn_nil; reflexivity|]. apply IH.
Qed.
Lemma skipn_cons_nth {A} k (l : list A) x r : skipn k l = x :: r ->
  nth_error l k = Some x /\ skipn (S k) l = r /\ k < length l.
Proof.
  revert l. induction k as [|k IH]; intros [|y l] E; cbn in E; try discriminate.
  - injection E as -> ->. cbn. auto with arith.
  - destruct (IH l E) as (H1 & H2 & H3). cbn [nth_error length skipn]. split; [exact H1|]. split; [exact H2|lia].
Qed.

(** ** The invariant *)
Definition is (b : bool) (P : Prop) : Prop := b = true <-> P.
Lemma is_yes b o : (b = match o with Some c => c | None => false end) -> is b (yes o).
Proof. intros ->. unfold is, yes. destruct o as [[]|]; intuition congruence. Qed.

Definition bit (o : option bool) : bool := match o with Some c => c | None => false end.
Definition f_pending (e : vop * vout) := if requests (snd e) then Some true
  else match fst e, snd e with VDraw _, VBad => None | VDraw _, _ => Some false | _, _ => None end.
Definition f_playing (e : vop * vout) := match fst e with VPause b => Some (negb b) | VLatency _ => Some true | _ => None end.
Definition f_emptied (e : vop * vout) := match fst e with VPause true => Some true | VPush _ => Some false | _ => None end.
Definition f_hidden (e : vop * vout) := match fst e with VVisible b => Some (negb b) | _ => None end.
Definition f_canvas (e : vop * vout) := match fst e with VCanvas b => Some b | _ => None end.
Definition f_settled (e : vop * vout) := match fst e with VPush _ => Some true | VLatency _ => Some false | _ => None end.

Record rinv (s : render) (tr : vevents) : Prop := {
  ri_dead : vr_dead s = false;
  ri_sched : vr_sched s = bit (latest f_pending tr);
  ri_playing : active (vr_state s) = bit (latest f_playing tr);
  ri_visible : vr_visible s = negb (bit (latest f_hidden tr));
  ri_canvas : vr_canvas s = bit (latest f_canvas tr);
  ri_latency : vr_latency s = asked_latency tr;
  ri_full : vr_queue s <> [] -> bit (latest f_emptied tr) = false;
  ri_empty : vr_sched s = true -> vr_queue s = [] -> bit (latest f_emptied tr) = true;
  ri_queue : exists k js, vr_queue s = skipn k (decoded tr) /\ k <= length (decoded tr) /\
    StronglySorted le js /\ Forall (fun j => j <= k) js /\
    Forall2 (fun j f => nth_error (decoded tr) j = Some f) js (shown tr) }.

Lemma rinv_new : rinv render_new [].
Proof.
  split; try reflexivity; try discriminate.
  exists 0, []. repeat split; constructor.
Qed.

(** [schedule] *)
Lemma schedule_cases s s' e : schedule s = (s', e) ->
  (s' = s /\ e = [] /\
   (vr_sched s = true \/ active (vr_state s) = false \/ vr_visible s = false \/ vr_queue s = [])) \/
  (s' = vwith_sched s true /\ e = [ERequest] /\ vr_sched s = false /\ active (vr_state s) = true /\
   vr_visible s = true /\ vr_queue s <> []).
Proof.
  unfold schedule. destruct (vr_sched s) eqn:E1; [intro E; injection E as <- <-; auto|].
  destruct (active (vr_state s)) eqn:E2; cbn [negb]; [|intro E; injection E as <- <-; auto 6].
  destruct (vr_visible s) eqn:E3; cbn [negb]; [|intro E; injection E as <- <-; auto 7].
  destruct (vr_queue s) as [|f q] eqn:E4; intro E; injection E as <- <-; [auto 7|].
  right. repeat split; congruence.
Qed.

Lemma js_ext d f js sh : Forall2 (fun j x => nth_error d j = Some x) js sh ->
  Forall2 (fun j (x : vframe) => nth_error (d ++ [f]) j = Some x) js sh.
Proof.
  induction 1; constructor; auto. rewrite nth_error_app1; [assumption|].
  apply nth_error_Some. congruence.
Qed.

Lemma shows_sched e : e = [] \/ e = [ERequest] -> shows (VOk e) = [].
Proof. intros [->| ->]; reflexivity. Qed.

Lemma shows_app a b : shows (VOk (a ++ b)) = shows (VOk a) ++ shows (VOk b).
Proof. unfold shows. cbn [effects_of]. apply flat_map_app. Qed.
Lemma requests_app a b : requests (VOk (a ++ b)) = requests (VOk a) || requests (VOk b).
Proof. unfold requests. cbn [effects_of]. apply existsb_app. Qed.

(** An event that ends with [schedule]. *)
Lemma inv_sched s0 tr o es s' e : rinv s0 (tr ++ [(o, VOk es)]) -> schedule s0 = (s', e) ->
  requests (VOk es) = false -> rinv s' (tr ++ [(o, VOk (es ++ e))]).
Proof.
  intros [I1 I2 I3 I4 I5 I6 I7 I8 I9] Es Hr.
  rewrite ?latest_snoc, ?decoded_snoc, ?shown_snoc, ?asked_snoc in *.
  assert (Hs : shows (VOk (es ++ e)) = shows (VOk es)).
  { rewrite shows_app. destruct (schedule_cases _ _ _ Es) as [(_ & -> & _)|(_ & -> & _)]; apply app_nil_r. }
  destruct (schedule_cases _ _ _ Es) as [(-> & -> & H)|(-> & -> & H1 & H2 & H3 & H4)].
  - rewrite app_nil_r. split; rewrite ?latest_snoc, ?decoded_snoc, ?shown_snoc, ?asked_snoc; auto.
  - split; rewrite ?latest_snoc, ?decoded_snoc, ?shown_snoc, ?asked_snoc; cbn [snd] in *; rewrite ?Hs; auto.
    unfold f_pending. cbn [snd]. rewrite requests_app, orb_true_r. reflexivity.
Qed.

Lemma inv_push s tr f s' x : rinv s tr -> vstep s (VPush f) = (s', x) -> rinv s' (tr ++ [(VPush f, x)]).
Proof.
  intros [I1 I2 I3 I4 I5 I6 I7 I8 I9]. unfold vstep. rewrite I1. unfold push.
  set (s0 := vwith_queue s (vr_queue s ++ [f])). set (s1 := trim_buffer s0).
  assert (Hq : vr_queue s1 <> [] /\ exists n, vr_queue s1 = skipn n (vr_queue s ++ [f])).
  { subst s1. unfold trim_buffer. subst s0. cbn [vr_queue vwith_queue].
    destruct (vr_queue s ++ [f]) as [|y q] eqn:E; [destruct (vr_queue s); discriminate|].
    generalize (trim_suffix (vr_latency s) (y :: q)) (trim_nonempty (vr_latency s) (y :: q)).
    change (vr_latency (vwith_queue s (y :: q))) with (vr_latency s).
    destruct (trim (vr_latency s) (y :: q)) as [q' b]. cbn [fst]. intros Hs Hn.
    destruct b; cbn; (split; [apply Hn; discriminate|exact Hs]). }
  assert (Hs : vr_dead s1 = vr_dead s /\ vr_sched s1 = vr_sched s /\ vr_state s1 = vr_state s /\
    vr_visible s1 = vr_visible s /\ vr_canvas s1 = vr_canvas s /\ vr_latency s1 = vr_latency s).
  { subst s1. unfold trim_buffer. destruct (vr_queue s0); [subst s0; cbn; auto 7|].
    destruct (trim _ _) as [q' []]; subst s0; cbn; auto 7. }
  destruct Hs as (S1 & S2 & S3 & S4 & S5 & S6). destruct Hq as (Q1 & n & Q2).
  destruct I9 as (k & js & K1 & K2 & K3 & K4 & K5).
  assert (I9' : exists k js, vr_queue s1 = skipn k (decoded tr ++ [f]) /\ k <= length (decoded tr ++ [f]) /\
    StronglySorted le js /\ Forall (fun j => j <= k) js /\
    Forall2 (fun j f' => nth_error (decoded tr ++ [f]) j = Some f') js (shown tr)).
  { assert (E : vr_queue s1 = skipn (k + n) (decoded tr ++ [f])).
    { rewrite Q2, K1, <- skipn_add. f_equal. rewrite skipn_app.
      replace (k - length (decoded tr)) with 0 by lia. reflexivity. }
    exists (k + n), js. split; [exact E|]. split.
    { destruct (le_lt_dec (k + n) (length (decoded tr ++ [f]))); [assumption|].
      exfalso. apply Q1. rewrite E. apply skipn_all2. lia. }
    split; [exact K3|]. split; [eapply Forall_impl; [|exact K4]; cbn; intros; lia|]. apply js_ext. exact K5. }
  destruct (schedule s1) as [s2 e] eqn:Es. intro E. injection E as <- <-.
  apply (inv_sched s1 tr (VPush f) [] s2 e); [|exact Es|reflexivity].
  split; rewrite ?latest_snoc, ?decoded_snoc, ?shown_snoc, ?asked_snoc; cbn [fst snd];
    rewrite ?app_nil_r; cbn -[skipn]; try congruence.
Qed.

Lemma inv_other s tr o s' x : rinv s tr ->
  match o with VPush _ | VDraw _ => False | _ => True end ->
  vstep s o = (s', x) -> rinv s' (tr ++ [(o, x)]).
Proof.
  intros I Ho. pose proof I as [I1 I2 I3 I4 I5 I6 I7 I8 I9]. unfold vstep. rewrite I1.
  destruct o as [f|now| |[]|ms|b|b]; try contradiction.
  - destruct (vr_timer s); intro E; injection E as <- <-; split;
      rewrite ?latest_snoc, ?decoded_snoc, ?shown_snoc, ?asked_snoc; cbn [fst snd]; rewrite ?app_nil_r;
      cbn -[skipn]; destruct (vr_state s) eqn:Est; cbn -[skipn] in *; rewrite ?Est in *; auto.
  - intro E; injection E as <- <-; split;
      rewrite ?latest_snoc, ?decoded_snoc, ?shown_snoc, ?asked_snoc; cbn [fst snd]; rewrite ?app_nil_r;
      cbn -[skipn]; auto; try congruence.
    destruct I9 as (k & js & K1 & K2 & K3 & K4 & K5). exists (length (decoded tr)), js.
    rewrite skipn_all. repeat split; auto. eapply Forall_impl; [|exact K4]. cbn. intros; lia.
  - destruct (schedule _) as [s2 e] eqn:Es. intro E; injection E as <- <-.
    apply (inv_sched (vwith_state s Buffering) tr (VPause false) [] s2 e); [|exact Es|reflexivity].
    split; rewrite ?latest_snoc, ?decoded_snoc, ?shown_snoc, ?asked_snoc; cbn [fst snd]; rewrite ?app_nil_r;
      cbn -[skipn]; auto.
  - intro E; injection E as <- <-; split;
      rewrite ?latest_snoc, ?decoded_snoc, ?shown_snoc, ?asked_snoc; cbn [fst snd]; rewrite ?app_nil_r;
      cbn -[skipn]; auto.
  - destruct (schedule _) as [s2 e] eqn:Es. intro E; injection E as <- <-.
    apply (inv_sched (vwith_visible s b) tr (VVisible b) [] s2 e); [|exact Es|reflexivity].
    split; rewrite ?latest_snoc, ?decoded_snoc, ?shown_snoc, ?asked_snoc; cbn [fst snd]; rewrite ?app_nil_r;
      cbn -[skipn]; auto. destruct b; reflexivity.
  - intro E; injection E as <- <-; split;
      rewrite ?latest_snoc, ?decoded_snoc, ?shown_snoc, ?asked_snoc; cbn [fst snd]; rewrite ?app_nil_r;
      cbn -[skipn]; auto.
Qed.

(** [draw] before its last step: the frame shown is at [k], and stays or goes. *)
Definition drawn (s : render) (now : N) (f : vframe) (q : list vframe) : option (render * vframe * list effect) :=
  match vr_ref s with
  | Some (wall, pts) =>
    let '(g, q, some) := advance (now - wall) pts f q in
    let s := vwith_queue s q in
    Some ((if some then set_live s else s), g, if some then [ETimer] else [])
  | None =>
    if (now + vr_latency s <? duration_max)%N
    then Some (vwith_ref (vwith_queue s q) (Some ((now + vr_latency s)%N, vf_ts f)), f, [])
    else None
  end.
Definition finish (s : render) (g : vframe) : render * list effect :=
  if (match vduration (vr_queue s) with Some d => d | None => 0 end <? vr_latency s)%N
  then (vwith_queue s (g :: vr_queue s), []) else (set_live s, [ETimer]).

Lemma drawn_spec s now f q s1 g e1 : drawn s now f q = Some (s1, g, e1) ->
  active (vr_state s) = true ->
  vr_dead s1 = vr_dead s /\ vr_sched s1 = vr_sched s /\ active (vr_state s1) = true /\ vr_visible s1 = vr_visible s /\
  vr_canvas s1 = vr_canvas s /\ vr_latency s1 = vr_latency s /\
  (exists n, skipn n (f :: q) = g :: vr_queue s1) /\ (e1 = [] \/ e1 = [ETimer]).
Proof.
  unfold drawn. destruct (vr_ref s) as [[wall pts]|].
  - destruct (advance (now - wall) pts f q) as [[g' q'] b] eqn:Ea. intros E Ha. injection E as <- <- <-.
    destruct (advance_suffix _ _ _ _ _ _ _ Ea) as [n En].
    destruct b; cbn; repeat split; auto; exists n; exact En.
  - destruct (_ <? _)%N; [|discriminate]. intros E Ha. injection E as <- <- <-. cbn. repeat split; auto.
    exists 0. reflexivity.
Qed.

Lemma draw_unfold now s : draw now s =
  let s := vwith_sched s false in
  if negb (active (vr_state s)) then (s, VOk []) else
  match vr_queue s with
  | [] => (vwith_dead s, VEmpty)
  | f :: q =>
    match drawn s now f q with
    | None => (vwith_dead s, VOverflow)
    | Some (s, g, e1) =>
      let (s2, e3) := finish s g in
      let (s3, e4) := schedule s2 in
      (s3, VOk (e1 ++ (if vr_canvas s then [EShow g] else []) ++ e3 ++ e4))
    end
  end.
Proof. reflexivity. Qed.

Lemma inv_draw s tr now s' x : rinv s tr -> vstep s (VDraw now) = (s', x) -> x <> VEmpty -> x <> VOverflow ->
  rinv s' (tr ++ [(VDraw now, x)]).
Proof.
  intros I. pose proof I as [I1 I2 I3 I4 I5 I6 I7 I8 I9]. unfold vstep. rewrite I1.
  destruct (vr_sched s) eqn:Hs.
  2:{ intro E. injection E as <- <-. intros _ _. split;
      rewrite ?latest_snoc, ?decoded_snoc, ?shown_snoc, ?asked_snoc; cbn [fst snd]; rewrite ?app_nil_r;
      cbn -[skipn]; rewrite ?Hs; auto. }
  rewrite draw_unfold. cbv zeta.
  change (vr_state (vwith_sched s false)) with (vr_state s). change (vr_queue (vwith_sched s false)) with (vr_queue s).
  destruct (active (vr_state s)) eqn:Ha; cbn [negb].
  2:{ intro E. injection E as <- <-. intros _ _. split;
      rewrite ?latest_snoc, ?decoded_snoc, ?shown_snoc, ?asked_snoc; cbn [fst snd]; rewrite ?app_nil_r;
      cbn -[skipn]; rewrite ?Hs; auto; congruence. }
  destruct (vr_queue s) as [|f q] eqn:Hq. { intro E. injection E as <- <-. congruence. }
  destruct (drawn (vwith_sched s false) now f q) as [[[s1 g] e1]|] eqn:Ed; [|intro E; injection E as <- <-; congruence].
  destruct (drawn_spec _ _ _ _ _ _ _ Ed Ha) as (D1 & D2 & D3 & D4 & D5 & D6 & (n & D7) & D8). cbn in D1, D2, D4, D5, D6.
  destruct (finish s1 g) as [s2 e3] eqn:Ef.
  destruct (schedule s2) as [s3 e4] eqn:Es. intro E. injection E as <- <-. intros _ _.
  rewrite !app_assoc. apply (inv_sched s2 tr); [|exact Es|].
  2:{ rewrite !requests_app. unfold finish in Ef. destruct (_ <? _)%N; injection Ef as <- <-; destruct D8 as [-> | ->]; destruct (vr_canvas s1); reflexivity. }
  destruct I9 as (k & js & K1 & K2 & K3 & K4 & K5).
  assert (G : skipn (k + n) (decoded tr) = g :: vr_queue s1) by (rewrite <- skipn_add, <- K1; exact D7).
  destruct (skipn_cons_nth _ _ _ _ G) as (G1 & G2 & G3).
  assert (Hsh : shows (VOk ((e1 ++ (if vr_canvas s1 then [EShow g] else [])) ++ e3)) = if vr_canvas s1 then [g] else []).
  { rewrite !shows_app. unfold finish in Ef. destruct (_ <? _)%N; injection Ef as <- <-; destruct D8 as [-> | ->]; destruct (vr_canvas s1); reflexivity. }
  assert (Hrq : requests (VOk ((e1 ++ (if vr_canvas s1 then [EShow g] else [])) ++ e3)) = false).
  { rewrite !requests_app. unfold finish in Ef. destruct (_ <? _)%N; injection Ef as <- <-; destruct D8 as [-> | ->]; destruct (vr_canvas s1); reflexivity. }
  assert (J : exists js', StronglySorted le js' /\ Forall (fun j => j <= k + n) js' /\
    Forall2 (fun j x => nth_error (decoded tr) j = Some x) js' (shown tr ++ if vr_canvas s1 then [g] else [])).
  { destruct (vr_canvas s1).
    - exists (js ++ [k + n]). split; [|split].
      + clear - K3 K4. induction K3 as [|j js K3 IH H]; cbn [app]; [constructor; constructor|].
        inversion K4; subst. constructor; [apply IH; assumption|]. apply Forall_app. split; [exact H|]. constructor; [lia|constructor].
      + apply Forall_app. split; [eapply Forall_impl; [|exact K4]; cbn; intros; lia|]. constructor; [lia|constructor].
      + apply Forall2_app; [exact K5|]. constructor; [exact G1|constructor].
    - exists js. rewrite app_nil_r. split; [exact K3|]. split; [|exact K5].
      eapply Forall_impl; [|exact K4]; cbn; intros; lia. }
  assert (I7' : bit (latest f_emptied tr) = false) by (apply I7; congruence).
  assert (F : vr_dead s2 = false /\ vr_sched s2 = false /\ active (vr_state s2) = true /\ vr_visible s2 = vr_visible s /\
    vr_canvas s2 = vr_canvas s /\ vr_latency s2 = vr_latency s /\
    (exists k', k + n <= k' /\ vr_queue s2 = skipn k' (decoded tr) /\ k' <= length (decoded tr))).
  { unfold finish in Ef. destruct (_ <? _)%N; injection Ef as <- <-; cbn; repeat split; try congruence.
    - exists (k + n). rewrite G. repeat split; lia.
    - exists (S (k + n)). rewrite G2. repeat split; lia. }
  destruct F as (F1 & F2 & F3 & F4 & F5 & F6 & k' & F7 & F8 & F9).
  split; rewrite ?latest_snoc, ?decoded_snoc, ?shown_snoc, ?asked_snoc; cbn [fst snd]; rewrite ?app_nil_r; rewrite ?Hsh;
    cbn [f_playing f_hidden f_canvas f_emptied fst]; try congruence.
  - unfold f_pending. cbn [fst snd]. rewrite Hrq. exact F2.
  - destruct J as (js' & J1 & J2 & J3). exists k', js'. split; [exact F8|]. split; [exact F9|]. split; [exact J1|].
    split; [|exact J3]. eapply Forall_impl; [|exact J2]; cbn; intros; lia.
Qed.

Lemma inv_step s tr o s' x : rinv s tr -> vstep s o = (s', x) -> x <> VEmpty -> x <> VOverflow ->
  rinv s' (tr ++ [(o, x)]).
Proof.
  intros I E H1 H2.
  destruct o; [eapply inv_push; eauto|eapply inv_draw; eauto|eapply inv_other; eauto; exact Logic.I..].
Qed.

Lemma alive_snoc tr e : alive (tr ++ [e]) -> alive tr /\ snd e <> VEmpty /\ snd e <> VOverflow.
Proof.
  unfold alive. rewrite Forall_app. intros [H1 H2]. split; [exact H1|]. inversion H2 as [|? ? H]; subst.
  destruct (snd e); split; congruence || contradiction.
Qed.

Lemma inv_run ops : alive (snd (vrun render_new ops)) ->
  rinv (fst (vrun render_new ops)) (snd (vrun render_new ops)).
Proof.
  induction ops as [|o ops IH] using rev_ind; intro H; [exact rinv_new|].
  rewrite vrun_snoc in *. cbn [fst snd] in *. apply alive_snoc in H. destruct H as (H & H1 & H2).
  eapply inv_step; [apply IH; exact H|apply surjective_pairing|exact H1|exact H2].
Qed.

(** ** Consequences *)
Lemma bit_yes o : bit o = true <-> yes o.
Proof. unfold yes. destruct o as [[]|]; cbn; intuition congruence. Qed.

(** What the callback does. *)
Theorem draw_exact ops s tr now : vrun render_new ops = (s, tr) -> alive tr ->
  (snd (vstep s (VDraw now)) = VEmpty <-> pending tr /\ playing tr /\ emptied tr).
Proof.
  intros E Al. pose proof (inv_run ops) as I. rewrite E in I. cbn [fst snd] in I. destruct (I Al) as [I1 I2 I3 I4 I5 I6 I7 I8 I9].
  change (pending tr) with (yes (latest f_pending tr)). change (playing tr) with (yes (latest f_playing tr)).
  change (emptied tr) with (yes (latest f_emptied tr)). rewrite <- !bit_yes, <- I2, <- I3.
  unfold vstep. rewrite I1. destruct (vr_sched s) eqn:Hs; [|cbn; intuition congruence].
  rewrite draw_unfold. cbv zeta.
  change (vr_state (vwith_sched s false)) with (vr_state s). change (vr_queue (vwith_sched s false)) with (vr_queue s).
  destruct (active (vr_state s)) eqn:Ha; cbn [negb]; [|cbn; intuition congruence].
  destruct (vr_queue s) as [|f q] eqn:Hq.
  - cbn [snd]. rewrite I8 by auto. intuition.
  - rewrite I7 by discriminate. split; [|intuition congruence].
    destruct (drawn _ _ _ _) as [[[s1 g] e1]|]; [|discriminate].
    destruct (finish s1 g) as [s2 e3]. destruct (schedule s2) as [s3 e4]. discriminate.
Qed.

Theorem draw_bad ops s tr now : vrun render_new ops = (s, tr) -> alive tr ->
  (snd (vstep s (VDraw now)) = VBad <-> ~ pending tr).
Proof.
  intros E Al. pose proof (inv_run ops) as I. rewrite E in I. cbn [fst snd] in I. destruct (I Al) as [I1 I2 I3 I4 I5 I6 I7 I8 I9].
  change (pending tr) with (yes (latest f_pending tr)). rewrite <- !bit_yes, <- I2.
  unfold vstep. rewrite I1. destruct (vr_sched s) eqn:Hs; [|cbn; intuition congruence].
  split; [|intuition congruence]. rewrite draw_unfold. cbv zeta.
  change (vr_state (vwith_sched s false)) with (vr_state s). change (vr_queue (vwith_sched s false)) with (vr_queue s).
  destruct (active (vr_state s)) eqn:Ha; cbn [negb]; [|discriminate].
  destruct (vr_queue s) as [|f q] eqn:Hq; [discriminate|].
  destruct (drawn _ _ _ _) as [[[s1 g] e1]|]; [|discriminate].
  destruct (finish s1 g) as [s2 e3]. destruct (schedule s2) as [s3 e4]. discriminate.
Qed.

Lemma latest_none f tr : (forall e, In e tr -> f e <> Some true) -> latest f tr <> Some true.
Proof.
  induction tr as [|e tr IH]; intros H; [discriminate|]. cbn [latest].
  destruct (latest f tr) as [b|] eqn:E.
  - apply IH. intros e' He'. apply H. right. exact He'.
  - apply H. left. reflexivity.
Qed.

Lemma in_run s : forall ops o x, In (o, x) (snd (vrun s ops)) -> In o ops.
Proof.
  intros ops. revert s. induction ops as [|o' ops IH]; intros s o x; cbn [vrun]; [contradiction|].
  destruct (vstep s o') as [s1 y]. specialize (IH s1 o x). destruct (vrun s1 ops) as [s2 tr]. cbn [snd In].
  intros [E|H]; [injection E as -> ->; auto|]. right. apply IH. exact H.
Qed.

(** Latencies stay small, so times do not overflow. *)
Lemma run_latency ops : Forall (fun o => match o with VLatency ms => (ms < 2 ^ 32)%N | _ => True end) ops ->
  (vr_latency (fst (vrun render_new ops)) <= 2 ^ 32 * 10 ^ 6)%N.
Proof.
  induction ops as [|o ops IH] using rev_ind; intro H; [cbn; lia|].
  rewrite vrun_snoc. cbn [fst]. apply Forall_app in H. destruct H as [H1 H2]. inversion H2 as [|? ? H3]; subst.
  specialize (IH H1). set (s := fst (vrun render_new ops)) in *.
  assert (Hsch : forall s0, vr_latency (fst (schedule s0)) = vr_latency s0).
  { intro s0. destruct (schedule s0) as [s1 e] eqn:Es. destruct (schedule_cases _ _ _ Es) as [(-> & _)|(-> & _)]; reflexivity. }
  unfold vstep. destruct (vr_dead s); [exact IH|].
  destruct o as [f|now| |[]|ms|b|b]; cbn [fst]; try exact IH.
  - unfold push. generalize (Hsch (trim_buffer (vwith_queue s (vr_queue s ++ [f])))).
    destruct (schedule _) as [s1 e]. cbn [fst]. intros ->.
    unfold trim_buffer. destruct (vr_queue (vwith_queue s (vr_queue s ++ [f]))); [exact IH|].
    destruct (trim _ _) as [q []]; exact IH.
  - destruct (vr_sched s); [|exact IH]. rewrite draw_unfold. cbv zeta.
    destruct (active _) eqn:Ha; [|exact IH]. cbn [negb].
    destruct (vr_queue _); [exact IH|].
    destruct (drawn (vwith_sched s false) now v l) as [[[s1 g] e1]|] eqn:Ed; [|exact IH].
    destruct (drawn_spec _ _ _ _ _ _ _ Ed Ha) as (_ & _ & _ & _ & _ & D6 & _). cbn in D6.
    assert (Hf : vr_latency (fst (finish s1 g)) = vr_latency s1) by (unfold finish; destruct (_ <? _)%N; reflexivity).
    destruct (finish s1 g) as [s2 e3]. cbn [fst] in Hf. specialize (Hsch s2). destruct (schedule s2) as [s3 e4]. cbn [fst] in *. congruence || (rewrite Hsch, Hf, D6; exact IH).
  - destruct (vr_timer s); [|exact IH]. destruct (vr_state s); exact IH.
  - generalize (Hsch (vwith_state s Buffering)). destruct (schedule _) as [s1 e]. cbn [fst]. intros ->. exact IH.
  - cbn. lia.
  - generalize (Hsch (vwith_visible s b)). destruct (schedule _) as [s1 e]. cbn [fst]. intros ->. exact IH.
Qed.

Lemma no_overflow s now : (now + vr_latency s < duration_max)%N -> snd (vstep s (VDraw now)) <> VOverflow.
Proof.
  intro H. unfold vstep. destruct (vr_dead s); [discriminate|]. destruct (vr_sched s); [|discriminate].
  rewrite draw_unfold. cbv zeta. destruct (active _); [|discriminate]. cbn [negb].
  destruct (vr_queue _) as [|f q]; [discriminate|]. unfold drawn. change (vr_latency (vwith_sched s false)) with (vr_latency s).
  apply N.ltb_lt in H. rewrite H. destruct (vr_ref _) as [[wall pts]|].
  - destruct (advance _ _ _ _) as [[g q'] b].
    destruct (finish _ g) as [s2 e3]. destruct (schedule s2) as [s3 e4]. discriminate.
  - destruct (finish _ f) as [s2 e3]. destruct (schedule s2) as [s3 e4]. discriminate.
Qed.
Lemma only_draw s o : snd (vstep s o) = VEmpty \/ snd (vstep s o) = VOverflow -> exists now, o = VDraw now.
Proof.
  unfold vstep. destruct (vr_dead s); [intros [|]; discriminate|].
  destruct o as [f|now| |[]|ms|b|b]; try (intros [|]; discriminate).
  - destruct (push f s). intros [|]; discriminate.
  - eauto.
  - destruct (vr_timer s); intros [|]; discriminate.
  - destruct (schedule _). intros [|]; discriminate.
  - destruct (schedule _). intros [|]; discriminate.
Qed.

Lemma in_time_latency ops : in_time ops -> Forall (fun o => match o with VLatency ms => (ms < 2 ^ 32)%N | _ => True end) ops.
Proof. apply Forall_impl. intros []; auto. Qed.

(** Never pausing is safe. *)
Theorem no_pause ops : in_time ops -> ~ In (VPause true) ops -> alive (snd (vrun render_new ops)).
Proof.
  induction ops as [|o ops IH] using rev_ind; intros Ht Hp; [constructor|].
  apply Forall_app in Ht. destruct Ht as [Ht1 Ht2]. inversion Ht2 as [|? ? Ht3]; subst.
  assert (Hp' : ~ In (VPause true) ops) by (intro Hin; apply Hp, in_or_app; auto).
  specialize (IH Ht1 Hp'). rewrite vrun_snoc. cbn [snd]. apply Forall_app. split; [exact IH|].
  constructor; [|constructor]. cbn [snd].
  destruct (snd (vstep (fst (vrun render_new ops)) o)) eqn:E; [exact Logic.I| | |exact Logic.I].
  - destruct (only_draw _ _ (or_introl E)) as [now ->].
    pose proof (draw_exact ops _ _ now (surjective_pairing _) IH) as [D _]. destruct (D E) as (_ & _ & D3).
    unfold emptied, yes in D3. apply latest_none in D3; [exact D3|].
    intros [o x] Hin. apply in_run in Hin. cbn [fst]. destruct o as [| | |[]| | |]; try discriminate. contradiction.
  - destruct (only_draw _ _ (or_intror E)) as [now ->].
    exfalso. revert E. apply no_overflow. pose proof (run_latency ops (in_time_latency _ Ht1)). change (now + 2 ^ 32 * 10 ^ 6 < duration_max)%N in Ht3. lia.
Qed.

(** Overflow never happens at sensible times. *)
Theorem never_overflow ops : in_time ops -> forall o, ~ In (o, VOverflow) (snd (vrun render_new ops)).
Proof.
  induction ops as [|o ops IH] using rev_ind; intros Ht o'; [intros []|].
  apply Forall_app in Ht. destruct Ht as [Ht1 Ht2]. inversion Ht2 as [|? ? Ht3]; subst.
  rewrite vrun_snoc. cbn [snd]. rewrite in_app_iff. intros [Hi|[Hi|[]]]; [exact (IH Ht1 _ Hi)|].
  injection Hi as -> E. destruct (only_draw _ _ (or_intror E)) as [now ->].
  revert E. apply no_overflow. pose proof (run_latency ops (in_time_latency _ Ht1)). change (now + 2 ^ 32 * 10 ^ 6 < duration_max)%N in Ht3. lia.
Qed.

(** Frames are shown in order. *)
Theorem shown_order ops : alive (snd (vrun render_new ops)) ->
  exists js, StronglySorted le js /\
    Forall2 (fun j f => nth_error (decoded (snd (vrun render_new ops))) j = Some f) js (shown (snd (vrun render_new ops))).
Proof.
  intro Al. destruct (ri_queue _ _ (inv_run ops Al)) as (k & js & _ & _ & H1 & _ & H2). eauto.
Qed.

(** Frames are only shown by a callback while playing. *)
Theorem shown_playing ops s tr o : vrun render_new ops = (s, tr) -> alive tr ->
  shows (snd (vstep s o)) <> [] -> (exists now, o = VDraw now) /\ pending tr /\ playing tr /\ ~ emptied tr /\ has_canvas tr.
Proof.
  intros E Al Hs. pose proof (inv_run ops) as I. rewrite E in I. cbn [fst snd] in I. destruct (I Al) as [I1 I2 I3 I4 I5 I6 I7 I8 I9].
  change (pending tr) with (yes (latest f_pending tr)). change (playing tr) with (yes (latest f_playing tr)).
  change (emptied tr) with (yes (latest f_emptied tr)). change (has_canvas tr) with (yes (latest f_canvas tr)).
  rewrite <- !bit_yes, <- I2, <- I3, <- I5.
  assert (Hsch : forall s0, shows (VOk (snd (schedule s0))) = []).
  { intro s0. destruct (schedule s0) as [s1 e] eqn:Es. destruct (schedule_cases _ _ _ Es) as [(_ & -> & _)|(_ & -> & _)]; reflexivity. }
  revert Hs. unfold vstep. rewrite I1. destruct o as [f|now| |[]|ms|b|b]; try (cbn; congruence).
  - unfold push. specialize (Hsch (trim_buffer (vwith_queue s (vr_queue s ++ [f])))). destruct (schedule _) as [s1 e]. cbn [snd] in *. congruence.
  - destruct (vr_sched s) eqn:Hsc; [|cbn; congruence]. rewrite draw_unfold. cbv zeta.
    change (vr_state (vwith_sched s false)) with (vr_state s). change (vr_queue (vwith_sched s false)) with (vr_queue s).
    destruct (active (vr_state s)) eqn:Ha; cbn [negb]; [|cbn; congruence].
    destruct (vr_queue s) as [|f q] eqn:Hq; [cbn; congruence|].
    destruct (drawn (vwith_sched s false) now f q) as [[[s1 g] e1]|] eqn:Ed; [|cbn; congruence].
    destruct (drawn_spec _ _ _ _ _ _ _ Ed Ha) as (_ & _ & _ & _ & D5 & _ & _ & D8). cbn in D5.
    assert (Hf : shows (VOk (snd (finish s1 g))) = []) by (unfold finish; destruct (_ <? _)%N; reflexivity).
    destruct (finish s1 g) as [s2 e3]. specialize (Hsch s2). destruct (schedule s2) as [s3 e4]. cbn [snd] in *.
    rewrite !shows_app, Hsch, Hf, !app_nil_r. rewrite I7 by discriminate.
    intro Hs. repeat split; eauto; try congruence.
    destruct (vr_canvas s1); [congruence|]. destruct D8 as [-> | ->]; cbn in Hs; congruence.
  - destruct (vr_timer s); cbn; congruence.
  - specialize (Hsch (vwith_state s Buffering)). destruct (schedule _) as [s1 e]. cbn [snd] in *. congruence.
  - specialize (Hsch (vwith_visible s b)). destruct (schedule _) as [s1 e]. cbn [snd] in *. congruence.
Qed.

(** A callback while playing shows one frame. *)
Theorem callback_shows ops s tr now : vrun render_new ops = (s, tr) -> alive tr ->
  pending tr -> playing tr -> ~ emptied tr -> has_canvas tr -> snd (vstep s (VDraw now)) <> VOverflow ->
  exists g, shows (snd (vstep s (VDraw now))) = [g].
Proof.
  intros E Al. pose proof (inv_run ops) as I. rewrite E in I. cbn [fst snd] in I. destruct (I Al) as [I1 I2 I3 I4 I5 I6 I7 I8 I9].
  change (pending tr) with (yes (latest f_pending tr)). change (playing tr) with (yes (latest f_playing tr)).
  change (emptied tr) with (yes (latest f_emptied tr)). change (has_canvas tr) with (yes (latest f_canvas tr)).
  rewrite <- !bit_yes, <- I2, <- I3, <- I5. intros Hsc Ha He Hc.
  unfold vstep. rewrite I1, Hsc. rewrite draw_unfold. cbv zeta.
  change (vr_state (vwith_sched s false)) with (vr_state s). change (vr_queue (vwith_sched s false)) with (vr_queue s).
  rewrite Ha. cbn [negb]. destruct (vr_queue s) as [|f q] eqn:Hq; [destruct He; auto|].
  destruct (drawn (vwith_sched s false) now f q) as [[[s1 g] e1]|] eqn:Ed; [|cbn; congruence].
  destruct (drawn_spec _ _ _ _ _ _ _ Ed Ha) as (_ & _ & _ & _ & D5 & _ & _ & D8). cbn in D5.
  assert (Hf : shows (VOk (snd (finish s1 g))) = []) by (unfold finish; destruct (_ <? _)%N; reflexivity).
  assert (Hsch : forall s0, shows (VOk (snd (schedule s0))) = []).
  { intro s0. destruct (schedule s0) as [s2 e] eqn:Es. destruct (schedule_cases _ _ _ Es) as [(_ & -> & _)|(_ & -> & _)]; reflexivity. }
  destruct (finish s1 g) as [s2 e3]. specialize (Hsch s2). destruct (schedule s2) as [s3 e4]. cbn [snd] in *.
  intros _. exists g. rewrite !shows_app, Hsch, Hf, !app_nil_r. rewrite D5, Hc. destruct D8 as [-> | ->]; reflexivity.
Qed.

(** After a frame was decoded while playing and visible, a callback is on its way. *)
Theorem push_pending ops s tr f s' x : vrun render_new ops = (s, tr) -> alive tr ->
  vstep s (VPush f) = (s', x) -> playing tr -> ~ hidden tr -> pending (tr ++ [(VPush f, x)]).
Proof.
  intros E Al. pose proof (inv_run ops) as I. rewrite E in I. cbn [fst snd] in I. specialize (I Al). pose proof I as [I1 I2 I3 I4 I5 I6 I7 I8 I9].
  intros Es. pose proof (inv_push _ _ _ _ _ I Es) as [J1 J2 _ _ _ _ _ _ _].
  change (pending (tr ++ [(VPush f, x)])) with (yes (latest f_pending (tr ++ [(VPush f, x)]))). change (playing tr) with (yes (latest f_playing tr)).
  change (hidden tr) with (yes (latest f_hidden tr)). rewrite <- !bit_yes, <- J2, <- I3.
  intros Ha Hh. assert (Hv : vr_visible s = true) by (rewrite I4; destruct (bit (latest f_hidden tr)); auto; destruct Hh; reflexivity).
  revert Es. unfold vstep. rewrite I1. unfold push.
  set (s1 := trim_buffer (vwith_queue s (vr_queue s ++ [f]))).
  assert (Hs : vr_state s1 = vr_state s /\ vr_visible s1 = vr_visible s /\ vr_queue s1 <> []).
  { subst s1. unfold trim_buffer. cbn [vr_queue vwith_queue].
    destruct (vr_queue s ++ [f]) as [|y q] eqn:Eq; [destruct (vr_queue s); discriminate|].
    generalize (trim_nonempty (vr_latency s) (y :: q)).
    change (vr_latency (vwith_queue s (y :: q))) with (vr_latency s).
    destruct (trim (vr_latency s) (y :: q)) as [q' b]. cbn [fst]. intros Hn.
    destruct b; cbn; (split; [reflexivity|split; [reflexivity|apply Hn; discriminate]]). }
  destruct Hs as (S1 & S2 & S3). destruct (schedule s1) as [s2 e] eqn:Esc. intro E1. injection E1 as <- <-.
  destruct (schedule_cases _ _ _ Esc) as [(-> & _ & [H|[H|[H|H]]])|(-> & _)]; try congruence; reflexivity.
Qed.

(** ** Latency *)
Definition fresh (s : render) (tr : vevents) : Prop :=
  bit (latest f_settled tr) = true ->
  forall f d, In f (vr_queue s) -> newest tr d -> (vf_ts d <= vf_ts f + vr_latency s)%N.

Lemma newest_snoc tr e d : match fst e with VPush _ => False | _ => True end -> newest (tr ++ [e]) d -> newest tr d.
Proof.
  intros H [l E]. exists l. rewrite decoded_snoc in E. destruct (fst e); try contradiction; rewrite app_nil_r in E; exact E.
Qed.
Lemma newest_push tr e f d : fst e = VPush f -> newest (tr ++ [e]) d -> d = f.
Proof.
  intros H [l E]. rewrite decoded_snoc, H in E. apply app_inj_tail in E. symmetry. apply E.
Qed.
Lemma in_skipn {A} n (l : list A) x : In x (skipn n l) -> In x l.
Proof. revert l. induction n as [|n IH]; intros [|y l]; cbn; auto. Qed.

(** Only [push] adds frames. *)
Lemma queue_subset s o s' x : vstep s o = (s', x) -> match o with VPush _ => False | _ => True end ->
  forall f, In f (vr_queue s') -> In f (vr_queue s).
Proof.
  assert (Hsch : forall s0, vr_queue (fst (schedule s0)) = vr_queue s0).
  { intro s0. destruct (schedule s0) as [s1 e] eqn:Es. destruct (schedule_cases _ _ _ Es) as [(-> & _)|(-> & _)]; reflexivity. }
  unfold vstep. destruct (vr_dead s); [intro E; injection E as <- <-; auto|].
  destruct o as [f|now| |[]|ms|b|b]; intros E H g; try contradiction.
  - destruct (vr_sched s); [|injection E as <- <-; auto]. revert E. rewrite draw_unfold. cbv zeta.
    change (vr_queue (vwith_sched s false)) with (vr_queue s).
    destruct (active _) eqn:Ha; cbn [negb]; [|intro E; injection E as <- <-; auto].
    destruct (vr_queue s) as [|f q] eqn:Hq; [intro E; injection E as <- <-; cbn; rewrite Hq; auto|].
    destruct (drawn (vwith_sched s false) now f q) as [[[s1 g1] e1]|] eqn:Ed; [|intro E; injection E as <- <-; cbn; rewrite Hq; auto].
    destruct (drawn_spec _ _ _ _ _ _ _ Ed Ha) as (_ & _ & _ & _ & _ & _ & (n & D7) & _).
    destruct (finish s1 g1) as [s2 e3] eqn:Ef. specialize (Hsch s2). destruct (schedule s2) as [s3 e4]. cbn [fst] in Hsch.
    intro E. injection E as <- <-. rewrite Hsch. intro Hi. apply (in_skipn n). rewrite D7.
    unfold finish in Ef. destruct (_ <? _)%N; injection Ef as <- <-; [exact Hi|]. right. exact Hi.
  - destruct (vr_timer s); injection E as <- <-; [|auto]. destruct (vr_state s); auto.
  - injection E as <- <-. intros [].
  - specialize (Hsch (vwith_state s Buffering)). destruct (schedule _) as [s1 e]. injection E as <- <-. cbn [fst] in Hsch. rewrite Hsch. auto.
  - injection E as <- <-. auto.
  - specialize (Hsch (vwith_visible s b)). destruct (schedule _) as [s1 e]. injection E as <- <-. cbn [fst] in Hsch. rewrite Hsch. auto.
  - injection E as <- <-. auto.
Qed.

(** [push] leaves frames close to the newest. *)
Lemma push_queue s f s' x : vstep s (VPush f) = (s', x) -> vr_dead s = false ->
  vr_queue s' = fst (trim (vr_latency s) (vr_queue s ++ [f])) /\ vr_latency s' = vr_latency s.
Proof.
  unfold vstep. intros E Hd. rewrite Hd in E. revert E. unfold push.
  assert (Hsch : forall s0, vr_queue (fst (schedule s0)) = vr_queue s0 /\ vr_latency (fst (schedule s0)) = vr_latency s0).
  { intro s0. destruct (schedule s0) as [s1 e] eqn:Es. destruct (schedule_cases _ _ _ Es) as [(-> & _)|(-> & _)]; split; reflexivity. }
  specialize (Hsch (trim_buffer (vwith_queue s (vr_queue s ++ [f])))). destruct (schedule _) as [s1 e]. cbn [fst] in Hsch.
  intro E. injection E as <- <-. destruct Hsch as [-> ->].
  unfold trim_buffer. cbn [vr_queue vwith_queue].
  destruct (vr_queue s ++ [f]) as [|y q] eqn:Eq; [destruct (vr_queue s); discriminate|].
  change (vr_latency (vwith_queue s (y :: q))) with (vr_latency s).
  destruct (trim (vr_latency s) (y :: q)) as [q' []]; cbn; auto.
Qed.

Lemma last_skipn {A} n (l : list A) x y d : skipn n (l ++ [x]) = y :: d -> last (y :: d) y = x.
Proof.
  revert l. induction n as [|n IH]; intros l E.
  - cbn [skipn] in E. rewrite <- E. apply last_last.
  - destruct l as [|z l]; [destruct n; discriminate|]. exact (IH l E).
Qed.

Lemma in_order_snoc tr e : in_order (tr ++ [e]) -> in_order tr.
Proof.
  unfold in_order. rewrite decoded_snoc. intros H i j f g Hi Hj Hl.
  apply (H i j); [rewrite nth_error_app1; [exact Hi|apply nth_error_Some; congruence]|rewrite nth_error_app1; [exact Hj|apply nth_error_Some; congruence]|exact Hl].
Qed.

Lemma skipn_nth {A} k (l : list A) i : nth_error (skipn k l) i = nth_error l (k + i).
Proof. revert l. induction k as [|k IH]; intros [|y l]; cbn; auto. destruct i; reflexivity. Qed.

Lemma fresh_run ops : alive (snd (vrun render_new ops)) -> in_order (snd (vrun render_new ops)) ->
  fresh (fst (vrun render_new ops)) (snd (vrun render_new ops)).
Proof.
  induction ops as [|o ops IH] using rev_ind; intros Al Or; [intros _ f d []|].
  pose proof (inv_run _ Al) as I'.
  rewrite vrun_snoc in *. cbn [fst snd] in *. destruct (alive_snoc _ _ Al) as (Al' & _).
  pose proof (in_order_snoc _ _ Or) as Or'. specialize (IH Al' Or'). pose proof (inv_run _ Al') as I.
  set (s := fst (vrun render_new ops)) in *. set (tr := snd (vrun render_new ops)) in *.
  destruct (vstep s o) as [s' x] eqn:Es. cbn [fst snd] in *.
  destruct o as [f|now| |b|ms|b|b].
  - intros _ g d Hg Hd. apply newest_push with (f := f) in Hd; [subst d|reflexivity].
    destruct (push_queue _ _ _ _ Es (ri_dead _ _ I)) as [Q1 Q2].
    destruct (vr_queue s') as [|y q] eqn:Eq; [destruct Hg|].
    assert (Hy : (vf_ts f <= vf_ts y + vr_latency s)%N).
    { destruct (trim_suffix (vr_latency s) (vr_queue s ++ [f])) as [n En].
      pose proof (trim_duration (vr_latency s) (vr_queue s ++ [f]) (vf_ts (last (y :: q) y) - vf_ts y)) as H.
      rewrite <- Q1 in H. specialize (H eq_refl). rewrite <- Q1 in En. symmetry in En. rewrite (last_skipn _ _ _ _ _ En) in H. lia. }
    destruct (ri_queue _ _ I') as (k & js & K1 & _). rewrite Eq in K1.
    destruct (In_nth_error _ _ Hg) as [i Hi].
    assert (H : (vf_ts y <= vf_ts g)%N).
    { apply (Or (k + 0) (k + i)); [| |lia]; rewrite <- skipn_nth, <- K1; [reflexivity|exact Hi]. }
    rewrite Q2. lia.
  - intro Hs. rewrite latest_snoc in Hs. cbn [f_settled fst] in Hs. intros f d Hf Hd.
    rewrite (ri_latency _ _ I'), asked_snoc. cbn [fst]. rewrite <- (ri_latency _ _ I).
    apply IH; [exact Hs|eapply queue_subset; eauto; exact Logic.I|eapply newest_snoc; [|exact Hd]; exact Logic.I].
  - intro Hs. rewrite latest_snoc in Hs. cbn [f_settled fst] in Hs. intros f d Hf Hd.
    rewrite (ri_latency _ _ I'), asked_snoc. cbn [fst]. rewrite <- (ri_latency _ _ I).
    apply IH; [exact Hs|eapply queue_subset; eauto; exact Logic.I|eapply newest_snoc; [|exact Hd]; exact Logic.I].
  - intro Hs. rewrite latest_snoc in Hs. cbn [f_settled fst] in Hs. intros f d Hf Hd.
    rewrite (ri_latency _ _ I'), asked_snoc. cbn [fst]. rewrite <- (ri_latency _ _ I).
    apply IH; [exact Hs|eapply queue_subset; eauto; exact Logic.I|eapply newest_snoc; [|exact Hd]; exact Logic.I].
  - intro Hs. rewrite latest_snoc in Hs. cbn in Hs. discriminate.
  - intro Hs. rewrite latest_snoc in Hs. cbn [f_settled fst] in Hs. intros f d Hf Hd.
    rewrite (ri_latency _ _ I'), asked_snoc. cbn [fst]. rewrite <- (ri_latency _ _ I).
    apply IH; [exact Hs|eapply queue_subset; eauto; exact Logic.I|eapply newest_snoc; [|exact Hd]; exact Logic.I].
  - intro Hs. rewrite latest_snoc in Hs. cbn [f_settled fst] in Hs. intros f d Hf Hd.
    rewrite (ri_latency _ _ I'), asked_snoc. cbn [fst]. rewrite <- (ri_latency _ _ I).
    apply IH; [exact Hs|eapply queue_subset; eauto; exact Logic.I|eapply newest_snoc; [|exact Hd]; exact Logic.I].
Qed.

(** A frame that is shown was in the queue. *)
Lemma shown_queue s o g : In g (shows (snd (vstep s o))) -> In g (vr_queue s).
Proof.
  assert (Hsch : forall s0, shows (VOk (snd (schedule s0))) = []).
  { intro s0. destruct (schedule s0) as [s1 e] eqn:Es. destruct (schedule_cases _ _ _ Es) as [(_ & -> & _)|(_ & -> & _)]; reflexivity. }
  unfold vstep. destruct (vr_dead s); [intros []|].
  destruct o as [f|now| |[]|ms|b|b]; try (intros []).
  - unfold push. specialize (Hsch (trim_buffer (vwith_queue s (vr_queue s ++ [f])))). destruct (schedule _) as [s1 e]. cbn [snd] in *.
    rewrite Hsch. intros [].
  - destruct (vr_sched s); [|intros []]. rewrite draw_unfold. cbv zeta.
    change (vr_queue (vwith_sched s false)) with (vr_queue s).
    destruct (active _) eqn:Ha; cbn [negb]; [|intros []].
    destruct (vr_queue s) as [|f q] eqn:Hq; [intros []|].
    destruct (drawn (vwith_sched s false) now f q) as [[[s1 g1] e1]|] eqn:Ed; [|intros []].
    destruct (drawn_spec _ _ _ _ _ _ _ Ed Ha) as (_ & _ & _ & _ & _ & _ & (n & D7) & D8).
    assert (Hf : shows (VOk (snd (finish s1 g1))) = []) by (unfold finish; destruct (_ <? _)%N; reflexivity).
    destruct (finish s1 g1) as [s2 e3]. specialize (Hsch s2). destruct (schedule s2) as [s3 e4]. cbn [snd] in *.
    rewrite !shows_app, Hsch, Hf, !app_nil_r. intro Hi. apply (in_skipn n). rewrite D7. left.
    apply in_app_or in Hi. destruct Hi as [Hi|Hi]; [destruct D8 as [-> | ->]; destruct Hi|].
    destruct (vr_canvas s1); cbn in Hi; intuition.
  - destruct (vr_timer s); intros [].
  - specialize (Hsch (vwith_state s Buffering)). destruct (schedule _) as [s1 e]. cbn [snd] in *. rewrite Hsch. intros [].
  - specialize (Hsch (vwith_visible s b)). destruct (schedule _) as [s1 e]. cbn [snd] in *. rewrite Hsch. intros [].
Qed.

Theorem shown_recent ops s tr o g d : vrun render_new ops = (s, tr) -> alive tr -> in_order tr -> settled tr ->
  In g (shows (snd (vstep s o))) -> newest tr d -> (vf_ts d <= vf_ts g + asked_latency tr)%N.
Proof.
  intros E Al Or Se Hg Hd. pose proof (fresh_run ops) as F. pose proof (inv_run ops) as I. rewrite E in F, I. cbn [fst snd] in *.
  rewrite <- (ri_latency _ _ (I Al)). apply (F Al Or); [|eapply shown_queue; eauto|exact Hd].
  apply bit_yes. exact Se.
Qed.

(** ** At rest *)
Definition f_kicked (e : vop * vout) := match fst e, snd e with VDraw _, VBad => None
                       | VPush _, _ | VPause false, _ | VVisible _, _ | VDraw _, _ => Some true
                       | VLatency _, _ => Some false | _, _ => None end.
Record qinv (s : render) (tr : vevents) : Prop := {
  qi_canvas : vr_canvas s = true;
  qi_rest : vr_sched s = false -> active (vr_state s) = true -> vr_visible s = true ->
    bit (latest f_kicked tr) = true -> vr_queue s = [];
  qi_newest : vr_queue s = [] -> bit (latest f_emptied tr) = false -> forall d, newest tr d -> exists l, shown tr = l ++ [d] }.

Lemma schedule_rest s s' e : schedule s = (s', e) ->
  vr_sched s' = false -> active (vr_state s') = true -> vr_visible s' = true -> vr_queue s' = [].
Proof.
  intros E. destruct (schedule_cases _ _ _ E) as [(-> & _ & [H|[H|[H|H]]])|(-> & _)]; cbn; congruence.
Qed.

Lemma shown_snoc_nil tr o x : shows x = [] -> shown (tr ++ [(o, x)]) = shown tr.
Proof. intro H. rewrite shown_snoc. cbn [snd]. rewrite H. apply app_nil_r. Qed.

Lemma skipn_last {A} k (l : list A) x : skipn k l = [x] -> exists l', l = l' ++ [x].
Proof.
  intro H. exists (firstn k l). rewrite <- (firstn_skipn k l) at 1. rewrite H. reflexivity.
Qed.

Lemma qinv_step s tr o s' x : rinv s tr -> qinv s tr -> match o with VCanvas _ => False | _ => True end ->
  vstep s o = (s', x) -> x <> VEmpty -> x <> VOverflow -> qinv s' (tr ++ [(o, x)]).
Proof.
  intros I [Q1 Q2 Q3] Ho Es X1 X2. pose proof (inv_step _ _ _ _ _ I Es X1 X2) as I'.
  pose proof (ri_dead _ _ I) as Hd.
  assert (Hsch : forall s0, shows (VOk (snd (schedule s0))) = []).
  { intro s0. destruct (schedule s0) as [s1 e] eqn:Ec. destruct (schedule_cases _ _ _ Ec) as [(_ & -> & _)|(_ & -> & _)]; reflexivity. }
  assert (Hcan : vr_canvas s' = true).
  { rewrite (ri_canvas _ _ I'), latest_snoc. destruct o; cbn [f_canvas fst]; try contradiction; rewrite <- (ri_canvas _ _ I); exact Q1. }
  assert (Hnew : match o with VPush _ => False | _ => True end -> shows x = [] -> (vr_queue s' = [] -> vr_queue s = []) ->
    match o with VPause true => False | _ => True end ->
    vr_queue s' = [] -> bit (latest f_emptied (tr ++ [(o, x)])) = false ->
    forall d, newest (tr ++ [(o, x)]) d -> exists l, shown (tr ++ [(o, x)]) = l ++ [d]).
  { intros H1 H2 H3 H4 Hq He d Hn. rewrite shown_snoc_nil by exact H2. rewrite latest_snoc in He.
    apply Q3; [auto| |eapply newest_snoc; [|exact Hn]; exact H1].
    destruct o as [| | |[]| | |]; try contradiction; exact He. }
  destruct o as [f|now| |[]|ms|b|b]; try contradiction.
  - destruct (push_queue _ _ _ _ Es Hd) as [P1 P2].
    assert (Hne : vr_queue s' <> []) by (rewrite P1; apply trim_nonempty; destruct (vr_queue s); discriminate).
    split; [exact Hcan| |congruence]. intros H1 H2 H3 _. exfalso. revert H1 H2 H3.
    revert Es. unfold vstep. rewrite Hd. unfold push. destruct (schedule _) as [s1 e] eqn:Ec. intro E. injection E as <- <-.
    intros H1 H2 H3. apply Hne. eapply schedule_rest; eauto.
  - destruct (vr_sched s) eqn:Hs.
    2:{ revert Es. unfold vstep. rewrite Hd, Hs. intro E. injection E as <- <-.
        split; [exact Hcan| |apply Hnew; auto].
        intros H1 H2 H3 Hk. rewrite latest_snoc in Hk. cbn [f_kicked fst snd] in Hk. auto. }
    revert Es. unfold vstep. rewrite Hd, Hs, draw_unfold. cbv zeta.
    change (vr_state (vwith_sched s false)) with (vr_state s). change (vr_queue (vwith_sched s false)) with (vr_queue s).
    destruct (active (vr_state s)) eqn:Ha; cbn [negb].
    2:{ intro E. injection E as <- <-. split; [exact Hcan|cbn; congruence|apply Hnew; auto]. }
    destruct (vr_queue s) as [|f q] eqn:Hq; [intro E; injection E as <- <-; congruence|].
    destruct (drawn (vwith_sched s false) now f q) as [[[s1 g] e1]|] eqn:Ed; [|intro E; injection E as <- <-; congruence].
    destruct (drawn_spec _ _ _ _ _ _ _ Ed Ha) as (_ & _ & _ & _ & D5 & _ & (n & D7) & D8). cbn in D5.
    assert (Hf : shows (VOk (snd (finish s1 g))) = []) by (unfold finish; destruct (_ <? _)%N; reflexivity).
    destruct (finish s1 g) as [s2 e3] eqn:Ef. specialize (Hsch s2). destruct (schedule s2) as [s3 e4] eqn:Ec. cbn [snd] in *.
    intro E. injection E as <- <-. split; [exact Hcan|intros; eapply schedule_rest; eauto|].
    intros Hq3 He d Hn. rewrite shown_snoc. cbn [snd]. rewrite !shows_app, Hf, Hsch, !app_nil_r, D5, Q1.
    assert (G : g = d).
    { destruct (ri_queue _ _ I) as (k & js & K1 & _). rewrite Hq in K1. rewrite K1, skipn_add in D7.
      assert (Hq1 : vr_queue s1 = []).
      { assert (H : vr_queue s2 = []) by (destruct (schedule_cases _ _ _ Ec) as [(<- & _)|(-> & _)]; exact Hq3).
        revert Ef. unfold finish. destruct (_ <? _)%N; intro E; injection E as <- <-; [discriminate H|exact H]. }
      rewrite Hq1 in D7. destruct (skipn_last _ _ _ D7) as [l Hl].
      apply newest_snoc in Hn; [|exact Logic.I]. destruct Hn as [l' Hl']. rewrite Hl in Hl'. apply app_inj_tail in Hl'. apply Hl'. }
    subst d. exists (shown tr). f_equal. destruct D8 as [-> | ->]; reflexivity.
  - split; [exact Hcan| |].
    + revert Es. unfold vstep. rewrite Hd. destruct (vr_timer s); intro E; injection E as <- <-;
        rewrite latest_snoc; cbn [f_kicked fst]; intros H1 H2 H3 H4;
        [transitivity (vr_queue s); [destruct (vr_state s); reflexivity|]|];
        apply Q2; auto; destruct (vr_state s) eqn:Est; cbn in *; rewrite ?Est in *; auto; congruence.
    + apply Hnew; auto; revert Es; unfold vstep; rewrite Hd; destruct (vr_timer s); intro E; injection E as <- <-; auto.
      destruct (vr_state s); auto.
  - revert Es. unfold vstep. rewrite Hd. intro E. injection E as <- <-. split; [exact Hcan|cbn; congruence|].
    intros _ He. rewrite latest_snoc in He. discriminate.
  - revert Es. unfold vstep. rewrite Hd. specialize (Hsch (vwith_state s Buffering)). destruct (schedule _) as [s1 e] eqn:Ec.
    intro E. injection E as <- <-. cbn [snd] in Hsch. split; [exact Hcan|intros; eapply schedule_rest; eauto|].
    apply Hnew; auto. destruct (schedule_cases _ _ _ Ec) as [(-> & _)|(-> & _)]; auto.
  - revert Es. unfold vstep. rewrite Hd. intro E. injection E as <- <-. split; [exact Hcan| |apply Hnew; auto].
    intros _ _ _ Hk. rewrite latest_snoc in Hk. discriminate.
  - revert Es. unfold vstep. rewrite Hd. specialize (Hsch (vwith_visible s b)). destruct (schedule _) as [s1 e] eqn:Ec.
    intro E. injection E as <- <-. cbn [snd] in Hsch. split; [exact Hcan|intros; eapply schedule_rest; eauto|].
    apply Hnew; auto. destruct (schedule_cases _ _ _ Ec) as [(-> & _)|(-> & _)]; auto.
Qed.

Theorem rest_newest ops s tr d : vrun render_new ops = (s, tr) -> alive tr -> one_canvas ops ->
  playing tr -> ~ hidden tr -> ~ emptied tr -> kicked tr -> ~ pending tr -> newest tr d ->
  exists l, shown tr = l ++ [d].
Proof.
  intros E Al (rest & -> & Hr).
  assert (Q : forall rest, Forall (fun o => match o with VCanvas _ => False | _ => True end) rest ->
    alive (snd (vrun render_new (VCanvas true :: rest))) ->
    qinv (fst (vrun render_new (VCanvas true :: rest))) (snd (vrun render_new (VCanvas true :: rest)))).
  { clear. induction rest as [|o rest IH] using rev_ind; intros Hr Al.
    - split; [reflexivity|reflexivity|]. intros _ _ d [l H]. destruct l; discriminate.
    - pose proof (vrun_snoc render_new (VCanvas true :: rest) o) as V. rewrite app_comm_cons in Al |- *. rewrite V in *. cbn [fst snd] in *.
      destruct (alive_snoc _ _ Al) as (Al' & X1 & X2). apply Forall_app in Hr. destruct Hr as [Hr1 Hr2]. inversion Hr2; subst.
      eapply qinv_step; [exact (inv_run _ Al')|exact (IH Hr1 Al')|assumption|apply surjective_pairing|exact X1|exact X2]. }
  specialize (Q rest Hr). pose proof (inv_run (VCanvas true :: rest)) as I. rewrite E in Q, I. cbn [fst snd] in Q, I.
  destruct (Q Al) as [Q1 Q2 Q3]. specialize (I Al).
  change (pending tr) with (yes (latest f_pending tr)). change (playing tr) with (yes (latest f_playing tr)).
  change (emptied tr) with (yes (latest f_emptied tr)). change (hidden tr) with (yes (latest f_hidden tr)).
  change (kicked tr) with (yes (latest f_kicked tr)). rewrite <- !bit_yes, <- (ri_sched _ _ I), <- (ri_playing _ _ I).
  intros H1 H2 H3 H4 H5 H6. apply not_true_is_false in H2, H3, H5. apply Q3; auto. apply Q2; auto.
  rewrite (ri_visible _ _ I), H2. reflexivity.
Qed.
