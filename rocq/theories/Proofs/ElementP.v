(** Proofs about the watching element. *)
From Coq Require Import NArith ZArith Arith List Bool Lia.
From Coq Require Import Init.Byte Strings.Byte.
From Verif.Model Require Import Base Map FrameSys Player Element.
From Verif.Spec Require Import PlayerSpec ElementSpec.
From Verif.Proofs Require Import TableP PlayerP.
Import ListNotations.

Section Element.
Context {C : Type} (builds : C -> bool) (parse_url : bytes -> option bytes) (parse_float parse_int : bytes -> num).
Notation estep := (estep builds parse_url parse_float parse_int).
Notation erun := (erun builds parse_url parse_float parse_int).
Notation wrun := (wrun builds).

(** Everything posted so far. *)
Definition posted (s : element C) (h : list (eop C * eout C)) : list cmd := took h ++ el_queue s.

Record settings (s : element C) (h : list (eop C * eout C)) : Prop := {
  s_url : told_url (posted s h) = asked_url parse_url h;
  s_latency : told_latency (posted s h) = asked_latency parse_int h;
  s_paused : told_paused (posted s h) = asked_paused h;
  s_visible : told_visible (posted s h) = latest_word h;
  s_muted : told_muted (posted s h) = is_zero (el_volume s);
  s_volume : el_volume s = asked_volume parse_float h;
  s_player : wrun watch_new (map fst (player h)) = (el_worker s, player h) }.

Lemma took_app a b : took (C:=C) (a ++ b) = took a ++ took b.
Proof. unfold took. apply flat_map_app. Qed.
Lemma player_app a b : player (C:=C) (a ++ b) = player a ++ player b.
Proof. unfold player. apply flat_map_app. Qed.

Lemma wrun_app (a b : list (wop C)) : forall s s1 t1, wrun s a = (s1, t1) ->
  forall s2 t2, wrun s1 b = (s2, t2) -> wrun s (a ++ b) = (s2, t1 ++ t2).
Proof.
  induction a as [|o a IH]; intros s s1 t1 E s2 t2 F; cbn [app Player.wrun] in *.
  { injection E as <- <-. exact F. }
  destruct (wstep builds s o) as [s' x]. destruct (wrun s' a) as [s'' tr] eqn:G. injection E as <- <-.
  now rewrite (IH _ _ _ G _ _ F).
Qed.
Lemma wrun_snoc (a : list (wop C)) o s s1 t1 s2 x : wrun s a = (s1, t1) -> wstep builds s1 o = (s2, x) ->
  wrun s (a ++ [o]) = (s2, t1 ++ [(o, x)]).
Proof. intros E F. eapply wrun_app; [exact E|]. cbn [Player.wrun]. now rewrite F. Qed.


(** Steps after which the worker is where it was. *)
Definition plain (x : eout C) : Prop := match x with ETook _ _ | EDid _ => False | _ => True end.

Lemma took_plain o x : plain x -> took (C:=C) [(o, x)] = [].
Proof. destruct x; cbn; auto; contradiction. Qed.
Lemma player_plain o x : plain x -> player (C:=C) [(o, x)] = [].
Proof. destruct x; cbn; auto; try contradiction; destruct o; reflexivity. Qed.

Ltac spread H := unfold told_url, told_latency, told_paused, told_visible, told_muted, asked_url, asked_latency, asked_paused,
  latest_word, asked_volume in H.

(** Such a step posts [q]. *)
Lemma post_step s h o x s1 q : settings s h -> plain x -> el_queue s1 = el_queue s ++ q -> el_worker s1 = el_worker s ->
  asked_url parse_url (h ++ [(o, x)]) = fold_left (fun x c => match c with CConnect u => u | _ => x end) q (asked_url parse_url h) ->
  asked_latency parse_int (h ++ [(o, x)]) = fold_left (fun x c => match c with CLatency n => n | _ => x end) q (asked_latency parse_int h) ->
  asked_paused (h ++ [(o, x)]) = fold_left (fun x c => match c with CPaused b => b | _ => x end) q (asked_paused h) ->
  latest_word (h ++ [(o, x)]) = fold_left (fun x c => match c with CVisible b => b | _ => x end) q (latest_word h) ->
  is_zero (el_volume s1) = fold_left (fun x c => match c with CMuted b => b | _ => x end) q (is_zero (el_volume s)) ->
  el_volume s1 = asked_volume parse_float (h ++ [(o, x)]) ->
  settings s1 (h ++ [(o, x)]).
Proof.
  intros [U L P V M W R] Hx Q Wk A1 A2 A3 A4 A5 A6.
  assert (E : posted s1 (h ++ [(o, x)]) = posted s h ++ q).
  { unfold posted. rewrite took_app, (took_plain _ _ Hx), app_nil_r, Q. now rewrite app_assoc. }
  split; rewrite ?E.
  - unfold told_url in *. now rewrite fold_left_app, U.
  - unfold told_latency in *. now rewrite fold_left_app, L.
  - unfold told_paused in *. now rewrite fold_left_app, P.
  - unfold told_visible in *. now rewrite fold_left_app, V.
  - unfold told_muted in *. now rewrite fold_left_app, M.
  - exact A6.
  - now rewrite player_app, (player_plain _ _ Hx), app_nil_r, Wk.
Qed.

Lemma asked_snoc h o x :
  asked_url parse_url (h ++ [(o, x)]) = match o with
    | EUrl u => u | EAttrUrl None => None
    | EAttrUrl (Some v) => match v with [] => None | _ => match parse_url v with Some u => Some u | None => asked_url parse_url h end end
    | _ => asked_url parse_url h end /\
  asked_latency parse_int (h ++ [(o, x)]) = match o with
    | ELatency n => n | EAttrLatency None => Fin 0 | EAttrLatency (Some v) => parse_int v | _ => asked_latency parse_int h end /\
  asked_paused (h ++ [(o, x)]) = match o with EPaused b => b | _ => asked_paused (C:=C) h end /\
  latest_word (h ++ [(o, x)]) = match o with
    | EVisible b | EDocument b => b | EIntersect b => if reported (o, x) then b else latest_word h | _ => latest_word h end /\
  asked_volume parse_float (h ++ [(o, x)]) = match o with
    | EVolume n => n | EAttrVolume None => Fin 1 | EAttrVolume (Some v) => parse_float v | _ => asked_volume parse_float h end.
Proof.
  unfold asked_url, asked_latency, asked_paused, latest_word, asked_volume. rewrite !fold_left_app. cbn [fold_left fst].
  repeat split; destruct o; reflexivity.
Qed.

(** A step that posts nothing and asks for nothing. *)
Lemma silent_step s h o x s1 : settings s h -> plain x -> el_queue s1 = el_queue s -> el_worker s1 = el_worker s ->
  el_volume s1 = el_volume s ->
  match o with
  | EUrl _ | ELatency _ | EPaused _ | EVisible _ | EDocument _ | EVolume _ | EAttrLatency _ | EAttrVolume _ => False
  | EAttrUrl v => nothing v = false /\ parse_url (match v with Some v => v | None => [] end) = None
  | EIntersect _ => x = ENone
  | _ => True end ->
  settings s1 (h ++ [(o, x)]).
Proof.
  intros I Hx Q Wk Vl Ho. destruct (asked_snoc h o x) as (A1 & A2 & A3 & A4 & A5).
  apply (post_step s h o x s1 []); auto; try (now rewrite app_nil_r); cbn [fold_left]; rewrite ?A1, ?A2, ?A3, ?A4, ?A5, ?Vl;
    destruct o; try contradiction; auto; try apply (s_volume _ _ I).
  - destruct v as [[|b v]|]; cbn in Ho; destruct Ho as [H1 H2]; try discriminate. now rewrite H2.
  - rewrite Ho. reflexivity.
Qed.

Lemma assign_url_ok s h o u : settings s h -> 
  asked_url parse_url (h ++ [(o, EDone)]) = u ->
  match o with EUrl _ | EAttrUrl _ => True | _ => False end ->
  settings (fst (assign_url u s)) (h ++ [(o, EDone)]).
Proof.
  intros I A Ho. destruct (asked_snoc h o EDone) as (A1 & A2 & A3 & A4 & A5).
  apply (post_step s h o EDone _ [CConnect u] I); cbn; auto; rewrite ?A2, ?A3, ?A4, ?A5; destruct o; try contradiction; auto;
    apply (s_volume _ _ I).
Qed.
Lemma assign_latency_ok s h o n : settings s h ->
  asked_latency parse_int (h ++ [(o, EDone)]) = n ->
  match o with ELatency _ | EAttrLatency _ => True | _ => False end ->
  settings (fst (assign_latency n s)) (h ++ [(o, EDone)]).
Proof.
  intros I A Ho. destruct (asked_snoc h o EDone) as (A1 & A2 & A3 & A4 & A5).
  apply (post_step s h o EDone _ [CLatency n] I); cbn; auto; rewrite ?A1, ?A3, ?A4, ?A5; destruct o; try contradiction; auto;
    apply (s_volume _ _ I).
Qed.
Lemma assign_visible_ok s h o b : settings s h ->
  latest_word (h ++ [(o, EDone)]) = b ->
  match o with EVisible _ | EDocument _ | EIntersect _ => True | _ => False end ->
  settings (fst (assign_visible b s)) (h ++ [(o, EDone)]).
Proof.
  intros I A Ho. destruct (asked_snoc h o EDone) as (A1 & A2 & A3 & A4 & A5).
  apply (post_step s h o EDone _ [CVisible b] I); cbn; auto; rewrite ?A1, ?A2, ?A3, ?A5; destruct o; try contradiction; auto;
    apply (s_volume _ _ I).
Qed.
Lemma assign_paused_ok s h b : settings s h -> settings (fst (assign_paused b s)) (h ++ [(EPaused b, EDone)]).
Proof.
  intros I. destruct (asked_snoc h (EPaused b) EDone) as (A1 & A2 & A3 & A4 & A5).
  apply (post_step s h _ EDone _ [CPaused b] I); cbn; auto; rewrite ?A5; apply (s_volume _ _ I).
Qed.
Lemma assign_volume_ok s h o n s1 x : settings s h -> assign_volume n s = (s1, x) ->
  (forall x, asked_volume parse_float (h ++ [(o, x)]) = n) ->
  match o with EVolume _ | EAttrVolume _ => True | _ => False end ->
  settings s1 (h ++ [(o, x)]).
Proof.
  intros I E A Ho. destruct (asked_snoc h o x) as (A1 & A2 & A3 & A4 & A5).
  assert (F : el_queue s1 = el_queue s ++ (if Bool.eqb (is_zero n) (is_zero (el_volume s)) then [] else [CMuted (is_zero n)]) /\
              el_worker s1 = el_worker s /\ el_volume s1 = n /\ plain x).
  { unfold assign_volume in E.
    destruct (Bool.eqb (is_zero n) (is_zero (el_volume s))); destruct (el_gain s); [destruct (finite n)| |destruct (finite n)|];
      injection E as <- <-; cbn; rewrite ?app_nil_r; auto. }
  destruct F as (F1 & F2 & F3 & F4).
  apply (post_step s h o x s1 _ I F4 F1 F2); rewrite ?A1, ?A2, ?A3, ?A4.
  1-4: destruct (Bool.eqb _ _); destruct o; try contradiction; reflexivity.
  - rewrite F3. destruct (Bool.eqb (is_zero n) (is_zero (el_volume s))) eqn:B; cbn; [|reflexivity]. now apply Bool.eqb_prop.
  - rewrite F3. symmetry. apply A.
Qed.

Lemma set_canvas_frame c s s1 x : set_canvas c s = (s1, x) ->
  plain x /\ el_worker s1 = el_worker s /\ el_volume s1 = el_volume s /\
  (el_queue s1 = el_queue s \/ el_queue s1 = el_queue s ++ [CCanvas c]).
Proof.
  unfold set_canvas. intros E. destruct c as [k|]; [destruct (existsb _ _)|]; injection E as <- <-; cbn; auto.
Qed.
Lemma init_audio_frame t r (s : element C) s1 x : init_audio t r s = (s1, x) ->
  plain x /\ el_worker s1 = el_worker s /\ el_volume s1 = el_volume s /\ el_queue s1 = el_queue s.
Proof. unfold init_audio. intros E. destruct (t || _); injection E as <- <-; cbn; auto. Qed.

Lemma settings_step s h o s1 x : settings s h -> estep s o = (s1, x) -> settings s1 (h ++ [(o, x)]).
Proof.
  intros I E.
  assert (Quiet : forall c, (forall v, c <> CConnect v) -> (forall v, c <> CLatency v) -> (forall v, c <> CPaused v) ->
      (forall v, c <> CVisible v) -> (forall v, c <> CMuted v) -> plain x -> el_queue s1 = el_queue s ++ [c] -> el_worker s1 = el_worker s ->
      el_volume s1 = el_volume s -> match o with ESlot _ | EModule _ => True | _ => False end ->
      settings s1 (h ++ [(o, x)])).
  { intros c N1 N2 N3 N4 N5 Hx Q Wk Vl Ho. destruct (asked_snoc h o x) as (A1 & A2 & A3 & A4 & A5).
    apply (post_step s h o x s1 [c] I Hx Q Wk); cbn [fold_left]; rewrite ?A1, ?A2, ?A3, ?A4, ?A5, ?Vl;
      destruct o; try contradiction; destruct c; try reflexivity; try (now apply (s_volume _ _ I)); exfalso; eauto;
      try (now eapply N1); try (now eapply N2); try (now eapply N3); try (now eapply N4); try (now eapply N5). }
  destruct o; cbn [Element.estep] in E.
  - (* EInit *) destruct (el_init s); injection E as <- <-; apply silent_step with s; cbn; auto.
  - injection E as <- <-. apply assign_url_ok; auto. destruct (asked_snoc h (EUrl u) EDone) as (A & _). exact A.
  - injection E as <- <-. apply assign_latency_ok; auto. destruct (asked_snoc h (ELatency n) EDone) as (_ & A & _). exact A.
  - injection E as <- <-. apply assign_visible_ok; auto. destruct (asked_snoc h (EVisible b) EDone) as (_ & _ & _ & A & _). exact A.
  - injection E as <- <-. now apply assign_paused_ok.
  - eapply assign_volume_ok; eauto. intros y. destruct (asked_snoc h (EVolume n) y) as (_ & _ & _ & _ & A). exact A.
  - (* EAttrUrl *)
    destruct (nothing v) eqn:Nv.
    + injection E as <- <-. apply assign_url_ok; auto. destruct (asked_snoc h (EAttrUrl v) EDone) as (A & _). rewrite A.
      destruct v as [[|b v]|]; try discriminate; reflexivity.
    + destruct (parse_url _) as [u|] eqn:Pu; injection E as <- <-.
      * apply assign_url_ok; auto. destruct (asked_snoc h (EAttrUrl v) EDone) as (A & _). rewrite A.
        destruct v as [[|b v]|]; try discriminate. now rewrite Pu.
      * apply silent_step with s; cbn; auto.
  - eapply assign_volume_ok; eauto. intros y. destruct (asked_snoc h (EAttrVolume v) y) as (_ & _ & _ & _ & A). rewrite A. now destruct v.
  - injection E as <- <-. apply assign_latency_ok; auto. destruct (asked_snoc h (EAttrLatency v) EDone) as (_ & A & _). rewrite A. now destruct v.
  - (* EIntersect *)
    destruct (el_canvas s); injection E as <- <-.
    + apply assign_visible_ok; auto. destruct (asked_snoc h (EIntersect b) EDone) as (_ & _ & _ & A & _). exact A.
    + apply silent_step with s; cbn; auto.
  - injection E as <- <-. apply assign_visible_ok; auto. destruct (asked_snoc h (EDocument b) EDone) as (_ & _ & _ & A & _). exact A.
  - (* ESlot *)
    destruct (set_canvas_frame _ _ _ _ E) as (F1 & F2 & F3 & [F4|F4]).
    + apply silent_step with s; auto.
    + eapply Quiet; eauto; discriminate.
  - (* EAudio *) destruct (init_audio_frame _ _ _ _ _ E) as (F1 & F2 & F3 & F4). apply silent_step with s; auto.
  - (* EClick *)
    destruct (el_click s).
    + destruct (init_audio_frame _ _ _ _ _ E) as (F1 & F2 & F3 & F4). apply silent_step with s; auto.
    + injection E as <- <-. apply silent_step with s; cbn; auto.
  - (* EModule *)
    destruct (existsb _ _); injection E as <- <-.
    + apply (Quiet (CWorklet x0)); cbn; auto; discriminate.
    + apply silent_step with s; cbn; auto.
  - (* EWork *)
    destruct (el_init s); [|injection E as <- <-; apply silent_step with s; cbn; auto].
    destruct (el_queue s) as [|c q] eqn:Q; [injection E as <- <-; apply silent_step with s; cbn; auto|].
    assert (Keep : forall y w, s1 = set_worker s q w -> x = ETook c y ->
      wrun watch_new (map fst (player (h ++ [(EWork, x)]))) = (w, player (h ++ [(EWork, x)])) -> settings s1 (h ++ [(EWork, x)])).
    { intros y w -> -> R. destruct I as [U L P V M W _]. unfold posted in *. rewrite Q in *.
      assert (T : took (h ++ [(EWork, ETook c y)]) ++ el_queue (set_worker s q w) = took h ++ c :: q).
      { rewrite took_app. cbn. now rewrite <- app_assoc. }
      destruct (asked_snoc h EWork (ETook c y)) as (A1 & A2 & A3 & A4 & A5).
      split; unfold posted; rewrite ?T, ?A1, ?A2, ?A3, ?A4, ?A5; auto. }
    destruct (command c) as [o|] eqn:Cm.
    + destruct (wstep builds (el_worker s) o) as [w y] eqn:Ws. injection E as <- <-.
      apply (Keep y w); auto. rewrite player_app. cbn [player flat_map]. rewrite Cm, app_nil_r, map_app. cbn [map fst].
      eapply wrun_snoc; [apply (s_player _ _ I)|exact Ws].
    + injection E as <- <-. apply (Keep [] (el_worker s)); auto. rewrite player_app. cbn [player flat_map]. rewrite Cm, !app_nil_r.
      apply (s_player _ _ I).
  - (* ENet *)
    destruct (network o) eqn:No; [|injection E as <- <-; apply silent_step with s; cbn; auto].
    destruct (wstep builds (el_worker s) o) as [w y] eqn:Ws. injection E as <- <-.
    destruct I as [U L P V M W R]. destruct (asked_snoc h (ENet o) (EDid y)) as (A1 & A2 & A3 & A4 & A5).
    assert (T : posted (set_worker s (el_queue s) w) (h ++ [(ENet o, EDid y)]) = posted s h).
    { unfold posted. rewrite took_app. cbn. now rewrite app_nil_r. }
    split; rewrite ?T, ?A1, ?A2, ?A3, ?A4, ?A5; auto.
    rewrite player_app. cbn [player flat_map app]. rewrite map_app. cbn [map fst]. eapply wrun_snoc; eauto.
Qed.

Lemma settings_run ops : forall s h s1 tr, settings s h -> erun s ops = (s1, tr) -> settings s1 (h ++ tr).
Proof.
  induction ops as [|o ops IH]; intros s h s1 tr I E; cbn in E.
  { injection E as <- <-. now rewrite app_nil_r. }
  destruct (estep s o) as [s' x] eqn:F. destruct (erun s' ops) as [s'' t] eqn:G. injection E as <- <-.
  change ((o, x) :: t) with ([(o, x)] ++ t). rewrite app_assoc. eapply IH; eauto. eapply settings_step; eauto.
Qed.

Lemma settings_new t r : settings (element_new t r) [].
Proof. destruct t, r; split; reflexivity. Qed.

Lemma settings_all t r ops s tr : erun (element_new t r) ops = (s, tr) -> settings s tr.
Proof. intros E. apply (settings_run _ _ [] _ _ (settings_new t r) E). Qed.

(** At rest all messages were taken. *)
Lemma rest_posted s h : snd (estep s EWork) = EIdle -> posted s h = took h.
Proof.
  cbn. intros E. unfold posted. destruct (el_init s); [|discriminate]. destruct (el_queue s) as [|c q]; [apply app_nil_r|].
  destruct (command c); [destruct (wstep _ _ _)|]; discriminate.
Qed.

Theorem told t r ops s tr : erun (element_new t r) ops = (s, tr) -> snd (estep s EWork) = EIdle ->
  told_url (took tr) = asked_url parse_url tr /\ told_latency (took tr) = asked_latency parse_int tr /\
  told_paused (took tr) = asked_paused tr /\ told_visible (took tr) = latest_word tr /\
  told_muted (took tr) = is_zero (asked_volume parse_float tr).
Proof.
  intros E R. pose proof (settings_all _ _ _ _ _ E) as [U L P V M W _].
  rewrite (rest_posted s tr R) in *. rewrite <- W. auto.
Qed.

(** * The player behind the element *)

Definition proper (e : eop C * eout C) : Prop :=
  match e with
  | (o, ETook _ _) => o = EWork
  | (o, EDid _) => exists n, o = ENet n /\ network n = true
  | _ => True
  end.
Lemma step_proper s o s1 x : estep s o = (s1, x) -> proper (o, x).
Proof.
  intros E. destruct o; cbn [Element.estep] in E; try (destruct x; cbn; auto; fail).
  - destruct (el_init s); injection E as <- <-; exact Logic.I.
  - injection E as <- <-; exact Logic.I.
  - injection E as <- <-; exact Logic.I.
  - injection E as <- <-; exact Logic.I.
  - injection E as <- <-; exact Logic.I.
  - unfold assign_volume in E. destruct (el_gain s); [destruct (finite n)|]; injection E as <- <-; exact Logic.I.
  - destruct (nothing v); [|destruct (parse_url _)]; injection E as <- <-; exact Logic.I.
  - unfold assign_volume in E. destruct (el_gain s); [destruct (finite _)|]; injection E as <- <-; exact Logic.I.
  - injection E as <- <-; exact Logic.I.
  - destruct (el_canvas s); injection E as <- <-; exact Logic.I.
  - injection E as <- <-; exact Logic.I.
  - unfold set_canvas in E. destruct (first_canvas _); [destruct (existsb _ _)|]; injection E as <- <-; exact Logic.I.
  - unfold init_audio in E. destruct (_ || _); injection E as <- <-; exact Logic.I.
  - destruct (el_click s); [unfold init_audio in E; destruct (_ || _)|]; injection E as <- <-; exact Logic.I.
  - destruct (existsb _ _); injection E as <- <-; exact Logic.I.
  - destruct (el_init s); [destruct (el_queue s) as [|c q]; [|destruct (command c); [destruct (wstep _ _ _)|]]|]; injection E as <- <-; cbn; auto.
  - destruct (network o) eqn:N; [destruct (wstep _ _ _)|]; injection E as <- <-; cbn; eauto.
Qed.
Lemma run_proper ops : forall s s1 tr, erun s ops = (s1, tr) -> Forall proper tr.
Proof.
  induction ops as [|o ops IH]; intros s s1 tr E; cbn in E.
  { injection E as <- <-. constructor. }
  destruct (estep s o) as [s' x] eqn:F. destruct (erun s' ops) as [s'' t] eqn:G. injection E as <- <-.
  constructor; [eapply step_proper; eauto|eauto].
Qed.

Lemma player_one (e : eop C * eout C) : player [e] = match e return list (wop C * list (effect C)) with
  | (_, ETook c x) => match command c with Some o => [(o, x)] | None => [] end
  | (ENet o, EDid x) => [(o, x)] | _ => [] end.
Proof. unfold player. cbn [flat_map]. now rewrite app_nil_r. Qed.
Lemma player_muted tr : Forall proper tr -> muted (player (C:=C) tr) = told_muted (took tr).
Proof.
  induction tr as [|e tr IH] using rev_ind; intros P; [reflexivity|].
  apply Forall_app in P as [P Pe]. inversion Pe as [|? ? Pe1 _]; subst. specialize (IH P).
  rewrite player_app, took_app, player_one. unfold muted, told_muted in *. rewrite !fold_left_app, IH.
  destruct e as [o x]; destruct x; cbn in *; try (destruct o; reflexivity).
  - subst o. destruct c; reflexivity.
  - destruct Pe1 as (n & -> & N). destruct n; cbn in *; try discriminate; reflexivity.
Qed.
Lemma player_visible tr : Forall proper tr -> visible (player (C:=C) tr) = told_visible (took tr).
Proof.
  induction tr as [|e tr IH] using rev_ind; intros P; [reflexivity|].
  apply Forall_app in P as [P Pe]. inversion Pe as [|? ? Pe1 _]; subst. specialize (IH P).
  rewrite player_app, took_app, player_one. unfold visible, told_visible in *. rewrite !fold_left_app, IH.
  destruct e as [o x]; destruct x; cbn in *; try (destruct o; reflexivity).
  - subst o. destruct c; reflexivity.
  - destruct Pe1 as (n & -> & N). destruct n; cbn in *; try discriminate; reflexivity.
Qed.

Theorem muted_silent t r ops s tr : erun (element_new t r) ops = (s, tr) -> snd (estep s EWork) = EIdle ->
  ~ panicked (player tr) -> is_zero (asked_volume parse_float tr) = true -> held Audio (player tr) = 0%Z.
Proof.
  intros E R NP Z. pose proof (told _ _ _ _ _ E R) as (_ & _ & _ & _ & M).
  pose proof (s_player _ _ (settings_all _ _ _ _ _ E)) as W.
  pose proof (held_one builds _ _ _ Audio W NP) as H. unfold enabled in H.
  rewrite (player_muted _ (run_proper _ _ _ _ E)), M, Z in H. cbn in H. lia.
Qed.
Theorem hidden_blank t r ops s tr : erun (element_new t r) ops = (s, tr) -> snd (estep s EWork) = EIdle ->
  ~ panicked (player tr) -> latest_word tr = false -> held Video (player tr) = 0%Z.
Proof.
  intros E R NP Z. pose proof (told _ _ _ _ _ E R) as (_ & _ & _ & V & _).
  pose proof (s_player _ _ (settings_all _ _ _ _ _ E)) as W.
  pose proof (held_one builds _ _ _ Video W NP) as H. unfold enabled in H.
  rewrite (player_visible _ (run_proper _ _ _ _ E)), V, Z in H. cbn in H. lia.
Qed.

Lemma undisturbed_word tr : undisturbed tr -> latest_word (C:=C) tr = on_screen tr.
Proof.
  intros U. unfold latest_word, on_screen. generalize true. induction tr as [|e tr IH]; intros b; [reflexivity|].
  cbn [fold_left]. assert (Ue : match fst e with EVisible _ | EDocument _ => False | _ => True end) by (apply U; now left).
  destruct e as [o x]; cbn [fst] in *; destruct o; try contradiction; apply IH; intros e' H; apply U; now right.
Qed.
Theorem watched t r ops s tr : erun (element_new t r) ops = (s, tr) -> snd (estep s EWork) = EIdle -> undisturbed tr ->
  told_visible (took tr) = on_screen tr /\ (~ panicked (player tr) -> on_screen tr = false -> held Video (player tr) = 0%Z).
Proof.
  intros E R U. pose proof (undisturbed_word _ U) as W. split.
  - rewrite <- W. pose proof (told _ _ _ _ _ E R) as (_ & _ & _ & V & _). exact V.
  - intros NP O. eapply hidden_blank; eauto; congruence.
Qed.

(** * Canvases *)

Record canvases (s : element C) (h : list (eop C * eout C)) : Prop := {
  c_moved : forall k, In k (el_moved s) <-> In (Some k) (displays h);
  c_told : once h -> told_canvas (posted s h) = on_display h }.

Lemma displays_snoc h o (x : eout C) : displays (h ++ [(o, x)]) = displays h ++ match o with ESlot els => [displayed els] | _ => [] end.
Proof. unfold displays. rewrite flat_map_app. cbn. destruct o; cbn; now rewrite ?app_nil_r. Qed.
Lemma on_display_snoc h o (x : eout C) : on_display (h ++ [(o, x)]) = match o with ESlot els => displayed els | _ => on_display h end.
Proof. unfold on_display. rewrite displays_snoc. destruct o; rewrite ?app_nil_r; auto. apply last_last. Qed.
Lemma first_same els : first_canvas els = first_of els.
Proof. induction els as [|[c|] els IH]; cbn; auto. Qed.
Lemma assigned_displayed els : first_canvas (assigned els) = displayed els.
Proof. destruct els; [reflexivity|]. cbn [assigned]. rewrite first_same. reflexivity. Qed.

Definition ids (l : list (option nat)) : list nat := flat_map (fun x => match x with Some c => [c] | None => [] end) l.
Lemma in_ids k l : In k (ids l) <-> In (Some k) l.
Proof.
  unfold ids. rewrite in_flat_map. split.
  - intros ([c|] & H & G); cbn in G; [|contradiction]. destruct G as [->|[]]. exact H.
  - intros H. exists (Some k). split; [exact H|now left].
Qed.
Lemma nodup_left {A} (a b : list A) : NoDup (a ++ b) -> NoDup a.
Proof.
  induction a as [|x a IH]; intros N; [constructor|]. inversion N as [|? ? H1 H2]; subst. constructor; auto.
  intros I. apply H1. apply in_or_app. now left.
Qed.
Lemma once_prefix h o (x : eout C) : once (h ++ [(o, x)]) -> once h.
Proof.
  unfold once. rewrite displays_snoc, flat_map_app. intros N. apply nodup_left in N. exact N.
Qed.
Lemma once_new h els (x : eout C) k : once (h ++ [(ESlot els, x)]) -> displayed els = Some k -> ~ In (Some k) (displays h).
Proof.
  unfold once. intros N D I. rewrite displays_snoc, D, flat_map_app in N. revert N I. generalize (displays h). intros l N I.
  apply in_ids in I. cbn [flat_map app] in N. apply (NoDup_remove_2 (ids l) []) in N. apply N. now rewrite app_nil_r.
Qed.

(** Steps that post no canvas. *)
Definition canvasless (q : list cmd) : Prop := forall c, In c q -> match c with CCanvas _ => False | _ => True end.
Lemma told_canvasless l q : canvasless q -> told_canvas (l ++ q) = told_canvas l.
Proof.
  intros H. unfold told_canvas. rewrite fold_left_app. generalize (fold_left (fun x c => match c with CCanvas k => k | _ => x end) l None).
  induction q as [|c q IH]; intros x; [reflexivity|]. cbn [fold_left]. assert (Hc := H c (or_introl eq_refl)).
  destruct c; try contradiction; apply IH; intros d I; apply H; now right.
Qed.

Lemma frame_step s o s1 x : estep s o = (s1, x) -> match o with ESlot _ | EWork => False | _ => True end ->
  el_moved s1 = el_moved s /\ took (C:=C) [(o, x)] = [] /\ exists q, el_queue s1 = el_queue s ++ q /\ canvasless q.
Proof.
  intros E Ho.
  assert (Nil : forall l : list cmd, exists q, l = l ++ q /\ canvasless q).
  { intros l. exists []. rewrite app_nil_r. split; [reflexivity|]. intros c []. }
  assert (One : forall (l : list cmd) c, match c with CCanvas _ => False | _ => True end -> exists q, l ++ [c] = l ++ q /\ canvasless q).
  { intros l c Hc. exists [c]. split; [reflexivity|]. intros d [<-|[]]. exact Hc. }
  destruct o; try contradiction; cbn [Element.estep] in E.
  - destruct (el_init s); injection E as <- <-; cbn; auto.
  - injection E as <- <-; cbn; auto.
  - injection E as <- <-; cbn; auto.
  - injection E as <- <-; cbn; auto.
  - injection E as <- <-; cbn; auto.
  - unfold assign_volume in E. destruct (Bool.eqb _ _); (destruct (el_gain s); [destruct (finite n)|]); injection E as <- <-; cbn; auto.
  - destruct (nothing v); [injection E as <- <-; cbn; auto|]. destruct (parse_url _); injection E as <- <-; cbn; auto.
  - unfold assign_volume in E. destruct (Bool.eqb _ _); (destruct (el_gain s); [destruct (finite _)|]); injection E as <- <-; cbn; auto.
  - injection E as <- <-; cbn; auto.
  - destruct (el_canvas s); injection E as <- <-; cbn; auto.
  - injection E as <- <-; cbn; auto.
  - unfold init_audio in E. destruct (_ || _); injection E as <- <-; cbn; auto.
  - destruct (el_click s); [|injection E as <- <-; cbn; auto]. unfold init_audio in E. destruct (_ || _); injection E as <- <-; cbn; auto.
  - destruct (existsb _ _); injection E as <- <-; cbn; auto.
  - destruct (network o); [destruct (wstep _ _ _)|]; injection E as <- <-; cbn; auto.
Qed.
Lemma work_step s s1 x : estep s EWork = (s1, x) -> el_moved s1 = el_moved s /\ took (C:=C) [(EWork, x)] ++ el_queue s1 = el_queue s.
Proof.
  cbn. intros E. destruct (el_init s); [|injection E as <- <-; auto]. destruct (el_queue s) as [|c q] eqn:Q; [injection E as <- <-; cbn; auto|].
  destruct (command c); [destruct (wstep _ _ _)|]; injection E as <- <-; cbn; auto.
Qed.

Lemma canvases_step s h o s1 x : canvases s h -> estep s o = (s1, x) -> canvases s1 (h ++ [(o, x)]).
Proof.
  intros [M T] E.
  assert (D : match o with ESlot _ | EWork => True | _ => False end \/ match o with ESlot _ | EWork => False | _ => True end) by (destruct o; auto).
  destruct D as [D|D].
  - destruct o; try contradiction.
    + cbn [Element.estep] in E. rewrite assigned_displayed in E. split.
      * intros k. rewrite displays_snoc, in_app_iff. unfold set_canvas in E. destruct (displayed els) as [c|] eqn:Dc.
        -- destruct (existsb (Nat.eqb c) (el_moved s)) eqn:Ex; injection E as <- <-; cbn.
           ++ rewrite M. split; [auto|]. intros [H|[H|[]]]; auto. injection H as <-. apply M.
              apply existsb_exists in Ex as (y & Hy & Ey). apply Nat.eqb_eq in Ey as <-. exact Hy.
           ++ rewrite M. split; [intros [->|H]; auto|]. intros [H|[H|[]]]; auto. injection H as <-. auto.
        -- injection E as <- <-; cbn. rewrite M. split; [auto|]. intros [H|[H|[]]]; auto. discriminate.
      * intros O. rewrite on_display_snoc. unfold set_canvas in E. destruct (displayed els) as [c|] eqn:Dc.
        -- pose proof (once_new _ _ _ _ O Dc) as N. rewrite <- M in N.
           assert (Ex : existsb (Nat.eqb c) (el_moved s) = false).
           { destruct (existsb _ _) eqn:Ex; auto. exfalso. apply N. apply existsb_exists in Ex as (y & Hy & Ey). apply Nat.eqb_eq in Ey as <-. exact Hy. }
           rewrite Ex in E. injection E as <- <-. unfold posted. rewrite took_app. cbn. rewrite app_nil_r, app_assoc.
           unfold told_canvas. rewrite fold_left_app. reflexivity.
        -- injection E as <- <-. unfold posted. rewrite took_app. cbn. rewrite app_nil_r, app_assoc.
           unfold told_canvas. rewrite fold_left_app. reflexivity.
    + destruct (work_step _ _ _ E) as [F1 F2]. split.
      * intros k. rewrite displays_snoc, app_nil_r, F1. apply M.
      * intros O. apply once_prefix in O. rewrite on_display_snoc. unfold posted. rewrite took_app, <- app_assoc, F2. now apply T.
  - destruct (frame_step _ _ _ _ E D) as (F1 & F2 & q & F3 & F4). split.
    + intros k. rewrite displays_snoc. destruct o; try contradiction; rewrite app_nil_r, F1; apply M.
    + intros O. apply once_prefix in O. rewrite on_display_snoc. unfold posted. rewrite took_app, F2, app_nil_r, F3, app_assoc, told_canvasless by exact F4.
      destruct o; try contradiction; now apply T.
Qed.
Lemma canvases_run ops : forall s h s1 tr, canvases s h -> erun s ops = (s1, tr) -> canvases s1 (h ++ tr).
Proof.
  induction ops as [|o ops IH]; intros s h s1 tr I E; cbn in E.
  { injection E as <- <-. now rewrite app_nil_r. }
  destruct (estep s o) as [s' x] eqn:F. destruct (erun s' ops) as [s'' t] eqn:G. injection E as <- <-.
  change ((o, x) :: t) with ([(o, x)] ++ t). rewrite app_assoc. eapply IH; eauto. eapply canvases_step; eauto.
Qed.
Lemma canvases_new t r : canvases (element_new t r) [].
Proof.
  destruct t, r; split; try reflexivity; intros k; cbn; intuition congruence.
Qed.
Theorem drawn t r ops s tr : erun (element_new t r) ops = (s, tr) -> snd (estep s EWork) = EIdle -> once tr ->
  told_canvas (took tr) = on_display tr.
Proof.
  intros E R O. pose proof (canvases_run _ _ [] _ _ (canvases_new t r) E) as [_ T]. specialize (T O).
  now rewrite (rest_posted s _ R) in T.
Qed.

(** * Volume *)

Record sounds (t : bool) (s : element C) (h : list (eop C * eout C)) : Prop := {
  a_count : length (el_contexts s) = (if t then 0 else 1) + audios h;
  a_gain : el_gain s = match length (el_contexts s) with 0 => None | S n => Some n end;
  a_load : forall x, In x (el_loading s) -> x < length (el_contexts s);
  a_told : forall x, In (CWorklet x) (posted s h) -> x < length (el_contexts s);
  a_vol : audible parse_float h -> finite (el_volume s) = true /\ forall n, length (el_contexts s) = S n -> gain_at s n = Some (el_volume s) }.

Definition workletless (q : list cmd) : Prop := forall x, ~ In (CWorklet x) q.
Lemma audios_snoc h o (x : eout C) : audios (h ++ [(o, x)]) = audios h + match o, x with EAudio _ _, EDone | EClick _, EDone => 1 | _, _ => 0 end.
Proof. unfold audios. rewrite filter_app, app_length. cbn. destruct o; try reflexivity; destruct x; reflexivity. Qed.
Lemma audible_prefix h e : audible parse_float (C:=C) (h ++ [e]) -> audible parse_float h.
Proof. intros A e' I. apply A. apply in_or_app. now left. Qed.
Lemma audible_last h e : audible parse_float (C:=C) (h ++ [e]) -> match fst e with
    | EVolume n => finite n = true | EAttrVolume (Some v) => finite (parse_float v) = true | _ => True end.
Proof. intros A. apply A. apply in_or_app. right. now left. Qed.

Lemma still_step s o s1 x : estep s o = (s1, x) ->
  match o with EVolume _ | EAttrVolume _ | EAudio _ _ | EClick _ | EModule _ | EWork => False | _ => True end ->
  el_contexts s1 = el_contexts s /\ el_gain s1 = el_gain s /\ el_loading s1 = el_loading s /\ el_volume s1 = el_volume s /\
  took (C:=C) [(o, x)] = [] /\ exists q, el_queue s1 = el_queue s ++ q /\ workletless q.
Proof.
  intros E Ho.
  assert (Nil : forall l : list cmd, exists q, l = l ++ q /\ workletless q).
  { intros l. exists []. rewrite app_nil_r. split; [reflexivity|]. intros c []. }
  assert (One : forall (l : list cmd) c, match c with CWorklet _ => False | _ => True end -> exists q, l ++ [c] = l ++ q /\ workletless q).
  { intros l c Hc. exists [c]. split; [reflexivity|]. intros d [->|[]]. exact Hc. }
  destruct o; try contradiction; cbn [Element.estep] in E.
  - destruct (el_init s); injection E as <- <-; cbn; auto 10.
  - injection E as <- <-; cbn; auto 10.
  - injection E as <- <-; cbn; auto 10.
  - injection E as <- <-; cbn; auto 10.
  - injection E as <- <-; cbn; auto 10.
  - destruct (nothing v); [injection E as <- <-; cbn; auto 10|]. destruct (parse_url _); injection E as <- <-; cbn; auto 10.
  - injection E as <- <-; cbn; auto 10.
  - destruct (el_canvas s); injection E as <- <-; cbn; auto 10.
  - injection E as <- <-; cbn; auto 10.
  - unfold set_canvas in E. destruct (first_canvas _); [destruct (existsb _ _)|]; injection E as <- <-; cbn; auto 10.
  - destruct (network o); [destruct (wstep _ _ _)|]; injection E as <- <-; cbn; auto 10.
Qed.

Lemma posted_more s h o (x : eout C) s1 q : took [(o, x)] = [] -> el_queue s1 = el_queue s ++ q -> posted s1 (h ++ [(o, x)]) = posted s h ++ q.
Proof. intros T Q. unfold posted. now rewrite took_app, T, app_nil_r, Q, app_assoc. Qed.

Lemma assign_volume_ok' t s h o x s1 n : sounds t s h -> assign_volume n s = (s1, x) ->
  match o with EVolume m => m = n | EAttrVolume v => match v with Some v => parse_float v | None => Fin 1 end = n | _ => False end ->
  sounds t s1 (h ++ [(o, x)]).
Proof.
  intros [K G L T V] E Ho.
  assert (Ca : audios (h ++ [(o, x)]) = audios h) by (rewrite audios_snoc; destruct o; try contradiction; lia).
  assert (Fin' : audible parse_float (h ++ [(o, x)]) -> finite n = true).
  { intros A. apply audible_last in A. destruct o; try contradiction; cbn in A; subst; auto. destruct v; auto. }
  assert (Tk : took (C:=C) [(o, x)] = []).
  { unfold assign_volume in E. destruct (el_gain s); [destruct (finite n)|]; injection E as <- <-; reflexivity. }
  assert (Qs : exists q, el_queue s1 = el_queue s ++ q /\ workletless q).
  { assert (N : exists q, el_queue s = el_queue s ++ q /\ workletless q) by (exists []; rewrite app_nil_r; split; [reflexivity|intros ? []]).
    assert (O : exists q, el_queue s ++ [CMuted (is_zero n)] = el_queue s ++ q /\ workletless q).
    { eexists. split; [reflexivity|]. intros y [D|[]]. discriminate. }
    unfold assign_volume in E. destruct (Bool.eqb _ _); (destruct (el_gain s); [destruct (finite n)|]); injection E as <- <-; cbn; auto. }
  destruct Qs as (q & Q & W).
  assert (Len : length (el_contexts s1) = length (el_contexts s) /\ el_gain s1 = el_gain s /\ el_loading s1 = el_loading s /\ el_volume s1 = n).
  { unfold assign_volume in E. destruct (el_gain s) as [g|] eqn:Eg; [destruct (finite n)|].
    2-3: destruct (Bool.eqb _ _); injection E as <- <-; cbn; auto.
    assert (Z : forall r, length (set_nth g (n, r) (el_contexts s)) = length (el_contexts s)) by (intros; apply set_nth_length).
    destruct (nth_error (el_contexts s) g) as [[v r]|]; destruct (Bool.eqb _ _); injection E as <- <-; cbn; auto. }
  destruct Len as (L1 & L2 & L3 & L4). split.
  - now rewrite L1, Ca.
  - now rewrite L2, L1.
  - intros y. rewrite L3, L1. apply L.
  - intros y. rewrite (posted_more _ _ _ _ _ _ Tk Q), L1, in_app_iff. intros [I|I]; [now apply T|]. now apply W in I.
  - intros A. rewrite L4. split; [auto|]. intros m Hm. rewrite L1 in Hm. specialize (Fin' A).
    unfold assign_volume in E. rewrite G, Hm, Fin' in E. unfold gain_at.
    assert (M : m < length (el_contexts s)) by lia.
    destruct (nth_error (el_contexts s) m) as [[v r]|] eqn:F; [|apply nth_error_None in F; lia].
    injection E as <- <-. cbn. rewrite nth_error_set_eq by exact M. reflexivity.
Qed.

Lemma init_audio_ok t s h o x s1 throws runs : sounds t s h -> init_audio throws runs s = (s1, x) ->
  match o with EAudio _ _ | EClick _ => True | _ => False end -> sounds t s1 (h ++ [(o, x)]).
Proof.
  intros [K G L T V] E Ho. unfold init_audio in E. destruct (throws || negb (finite (el_volume s))) eqn:Th; injection E as <- <-.
  - assert (P : posted s (h ++ [(o, EThrew)]) = posted s h) by (unfold posted; now rewrite took_app, app_nil_r).
    split; rewrite ?P; auto.
    + rewrite audios_snoc, K. destruct o; try contradiction; lia.
    + intros A. apply V. eapply audible_prefix; eauto.
  - assert (P : posted (set_contexts s (Some (length (el_contexts s))) (el_contexts s ++ [(el_volume s, runs)]) (el_loading s ++ [length (el_contexts s)]))
       (h ++ [(o, EDone)]) = posted s h) by (unfold posted; now rewrite took_app, app_nil_r).
    split; rewrite ?P; cbn [el_contexts el_gain el_loading el_volume set_contexts]; rewrite ?app_length; cbn [length].
    + rewrite audios_snoc, K. destruct o; try contradiction; lia.
    + replace (length (el_contexts s) + 1) with (S (length (el_contexts s))) by lia. reflexivity.
    + intros y I. apply in_app_or in I as [I|[<-|[]]]; [apply L in I|]; lia.
    + intros y I. apply T in I. lia.
    + intros A. apply audible_prefix in A. split; [apply V, A|]. intros m Hm. assert (m = length (el_contexts s)) as -> by lia.
      unfold gain_at. cbn. rewrite nth_error_app2 by lia. now rewrite Nat.sub_diag.
Qed.

Lemma sounds_step t s h o s1 x : sounds t s h -> estep s o = (s1, x) -> sounds t s1 (h ++ [(o, x)]).
Proof.
  intros I E.
  assert (D : match o with EVolume _ | EAttrVolume _ | EAudio _ _ | EClick _ | EModule _ | EWork => True | _ => False end \/
              match o with EVolume _ | EAttrVolume _ | EAudio _ _ | EClick _ | EModule _ | EWork => False | _ => True end) by (destruct o; auto).
  destruct D as [D|D].
  - destruct o; try contradiction.
    + eapply assign_volume_ok'; eauto; reflexivity.
    + eapply assign_volume_ok'; eauto; reflexivity.
    + eapply init_audio_ok; eauto; exact Logic.I.
    + cbn in E. destruct (el_click s).
      * eapply (init_audio_ok t (set_click s false)); [|exact E|exact Logic.I]. destruct I as [K G L T V]. split; auto.
      * injection E as <- <-. destruct I as [K G L T V].
        assert (P : posted s (h ++ [(EClick throws, ENone)]) = posted s h) by (unfold posted; now rewrite took_app, app_nil_r).
        split; rewrite ?P; auto; [rewrite audios_snoc; lia|]. intros A. apply V. eapply audible_prefix; eauto.
    + cbn in E. destruct I as [K G L T V]. destruct (existsb (Nat.eqb x0) (el_loading s)) eqn:Ex; injection E as <- <-.
      * apply existsb_exists in Ex as (y & Hy & Ey). apply Nat.eqb_eq in Ey as <-. split; cbn [el_contexts el_gain el_loading el_volume set_contexts post].
        -- rewrite audios_snoc; lia.
        -- exact G.
        -- intros y I. apply filter_In in I as [I _]. now apply L.
        -- intros y I. unfold posted in I. rewrite took_app in I. cbn in I. rewrite app_nil_r, app_assoc in I.
           apply in_app_or in I as [I|[I|[]]]; [now apply T|]. injection I as <-. now apply L.
        -- intros A. apply V. eapply audible_prefix; eauto.
      * assert (P : posted s (h ++ [(EModule x0, ENone)]) = posted s h) by (unfold posted; now rewrite took_app, app_nil_r).
        split; rewrite ?P; auto; [rewrite audios_snoc; lia|]. intros A. apply V. eapply audible_prefix; eauto.
    + destruct (work_step _ _ _ E) as [_ F2]. destruct I as [K G L T V].
      assert (P : posted s1 (h ++ [(EWork, x)]) = posted s h) by (unfold posted; now rewrite took_app, <- app_assoc, F2).
      assert (Same : el_contexts s1 = el_contexts s /\ el_gain s1 = el_gain s /\ el_loading s1 = el_loading s /\ el_volume s1 = el_volume s).
      { cbn in E. destruct (el_init s); [destruct (el_queue s) as [|c q]; [|destruct (command c); [destruct (wstep _ _ _)|]]|]; injection E as <- <-; auto. }
      destruct Same as (S1 & S2 & S3 & S4). split; unfold gain_at; rewrite ?P, ?S1, ?S2, ?S3, ?S4; auto; [rewrite audios_snoc; lia|].
      intros A. apply V. eapply audible_prefix; eauto.
  - destruct (still_step _ _ _ _ E D) as (S1 & S2 & S3 & S4 & S5 & q & S6 & S7). destruct I as [K G L T V].
    split; unfold gain_at; rewrite ?(posted_more _ _ _ _ _ _ S5 S6), ?S1, ?S2, ?S3, ?S4; auto.
    + rewrite audios_snoc. destruct o; try contradiction; lia.
    + intros y I. apply in_app_or in I as [I|I]; [auto|]. now apply S7 in I.
    + intros A. apply V. eapply audible_prefix; eauto.
Qed.
Lemma sounds_run t ops : forall s h s1 tr, sounds t s h -> erun s ops = (s1, tr) -> sounds t s1 (h ++ tr).
Proof.
  induction ops as [|o ops IH]; intros s h s1 tr I E; cbn in E.
  { injection E as <- <-. now rewrite app_nil_r. }
  destruct (estep s o) as [s' x] eqn:F. destruct (erun s' ops) as [s'' u] eqn:G. injection E as <- <-.
  change ((o, x) :: u) with ([(o, x)] ++ u). rewrite app_assoc. eapply IH; eauto. eapply sounds_step; eauto.
Qed.
Lemma sounds_new t r : sounds t (element_new t r) [].
Proof.
  destruct t; split; cbn; auto; try contradiction.
  - intros x [D|[]]. discriminate.
  - intros _. split; [reflexivity|]. intros n D. discriminate.
  - intros x [<-|[]]. lia.
  - intros x [D|[]]. discriminate.
  - intros _. split; [reflexivity|]. intros n D. injection D as <-. reflexivity.
Qed.
Lemma told_in l x : told_worklet l = Some x -> In (CWorklet x) l.
Proof.
  unfold told_worklet. induction l as [|c l IH] using rev_ind; [discriminate|].
  rewrite fold_left_app. cbn. intros H. apply in_or_app. destruct c; auto. injection H as ->. right. now left.
Qed.
Theorem loud t r ops s tr x : erun (element_new t r) ops = (s, tr) -> audible parse_float tr ->
  (if t then 0 else 1) + audios tr <= 1 -> told_worklet (took tr) = Some x -> gain_at s x = Some (asked_volume parse_float tr).
Proof.
  intros E A O T. pose proof (sounds_run t _ _ [] _ _ (sounds_new t r) E) as [K G L W V]. cbn [app] in *.
  pose proof (told_in _ _ T) as I. assert (In (CWorklet x) (posted s tr)) as I' by (apply in_or_app; now left).
  apply W in I'. assert (x = 0) as -> by lia. destruct (V A) as [_ V2]. rewrite (V2 0) by lia. f_equal.
  apply (s_volume _ _ (settings_all _ _ _ _ _ E)).
Qed.

(** * Which contexts run *)

Lemma contexts_step s o s1 x : estep s o = (s1, x) ->
  (forall k, k < length (el_contexts s) -> running s1 k = running s k) /\
  length (el_contexts s) <= length (el_contexts s1) /\
  (forall k, length (el_contexts s) <= k -> k < length (el_contexts s1) -> running s1 k = match o with EAudio _ r => r | _ => true end) /\
  (match o with EAudio _ _ | EClick _ => True | _ => length (el_contexts s1) = length (el_contexts s) end).
Proof.
  intros E.
  assert (Same : el_contexts s1 = el_contexts s -> (forall k, k < length (el_contexts s) -> running s1 k = running s k) /\
     length (el_contexts s) <= length (el_contexts s1) /\
     (forall k, length (el_contexts s) <= k -> k < length (el_contexts s1) -> running s1 k = match o with EAudio _ r => r | _ => true end) /\
     (match o with EAudio _ _ | EClick _ => True | _ => length (el_contexts s1) = length (el_contexts s) end)).
  { intros H. unfold running. rewrite H. repeat split; auto; [intros; lia|]. destruct o; auto. }
  assert (Vol : forall n, assign_volume n s = (s1, x) -> match o with EVolume _ | EAttrVolume _ => True | _ => False end ->
     (forall k, k < length (el_contexts s) -> running s1 k = running s k) /\
     length (el_contexts s) <= length (el_contexts s1) /\
     (forall k, length (el_contexts s) <= k -> k < length (el_contexts s1) -> running s1 k = match o with EAudio _ r => r | _ => true end) /\
     (match o with EAudio _ _ | EClick _ => True | _ => length (el_contexts s1) = length (el_contexts s) end)).
  { intros n F Ho. unfold assign_volume in F. destruct (el_gain s) as [g|].
    2: { destruct (Bool.eqb _ _); injection F as <- <-; apply Same; reflexivity. }
    destruct (finite n); [|destruct (Bool.eqb _ _); injection F as <- <-; apply Same; reflexivity].
    destruct (nth_error (el_contexts s) g) as [[v r]|] eqn:N.
    2: { destruct (Bool.eqb _ _); injection F as <- <-; apply Same; reflexivity. }
    assert (C1 : el_contexts s1 = set_nth g (n, r) (el_contexts s)) by (destruct (Bool.eqb _ _); injection F as <- <-; reflexivity).
    unfold running. rewrite C1, set_nth_length. assert (Hg : g < length (el_contexts s)) by (apply nth_error_Some; congruence).
    repeat split; auto.
    - intros k Hk. destruct (Nat.eq_dec k g) as [->|Hne].
      + rewrite nth_error_set_eq by exact Hg. now rewrite N.
      + now rewrite nth_error_set_ne by auto.
    - intros; lia.
    - destruct o; auto. }
  assert (Aud : forall throws runs s0, el_contexts s0 = el_contexts s -> init_audio throws runs s0 = (s1, x) -> match o with EAudio _ r => r = runs | EClick _ => runs = true | _ => False end ->
     (forall k, k < length (el_contexts s) -> running s1 k = running s k) /\
     length (el_contexts s) <= length (el_contexts s1) /\
     (forall k, length (el_contexts s) <= k -> k < length (el_contexts s1) -> running s1 k = match o with EAudio _ r => r | _ => true end) /\
     (match o with EAudio _ _ | EClick _ => True | _ => length (el_contexts s1) = length (el_contexts s) end)).
  { intros throws runs s0 H0 F Ho. unfold init_audio in F. destruct (_ || _); injection F as <- <-; [apply Same; exact H0|].
    unfold running. cbn [el_contexts set_contexts]. rewrite H0, app_length. cbn [length]. repeat split; [| lia | |destruct o; auto; contradiction].
    - intros k Hk. now rewrite nth_error_app1 by exact Hk.
    - intros k H1 H2. assert (k = length (el_contexts s)) as -> by lia. rewrite nth_error_app2 by lia. rewrite Nat.sub_diag. cbn.
      destruct o; try contradiction; auto. }
  destruct o; cbn [Element.estep] in E.
  - apply Same. destruct (el_init s); injection E as <- <-; reflexivity.
  - apply Same. injection E as <- <-; reflexivity.
  - apply Same. injection E as <- <-; reflexivity.
  - apply Same. injection E as <- <-; reflexivity.
  - apply Same. injection E as <- <-; reflexivity.
  - eapply Vol; eauto.
  - apply Same. destruct (nothing v); [injection E as <- <-; reflexivity|]. destruct (parse_url _); injection E as <- <-; reflexivity.
  - eapply Vol; eauto.
  - apply Same. injection E as <- <-; reflexivity.
  - apply Same. destruct (el_canvas s); injection E as <- <-; reflexivity.
  - apply Same. injection E as <- <-; reflexivity.
  - apply Same. unfold set_canvas in E. destruct (first_canvas _); [destruct (existsb _ _)|]; injection E as <- <-; reflexivity.
  - eapply (Aud throws runs s); eauto.
  - destruct (el_click s); [|apply Same; injection E as <- <-; reflexivity]. eapply (Aud throws true (set_click s false)); eauto.
  - apply Same. destruct (existsb _ _); injection E as <- <-; reflexivity.
  - apply Same. destruct (el_init s); [destruct (el_queue s) as [|c q]; [|destruct (command c); [destruct (wstep _ _ _)|]]|]; injection E as <- <-; reflexivity.
  - apply Same. destruct (network o); [destruct (wstep _ _ _)|]; injection E as <- <-; reflexivity.
Qed.

Lemma running_run ops : forall s s1 tr, erun s ops = (s1, tr) -> permitted tr ->
  (forall k, k < length (el_contexts s) -> running s k = true) -> forall k, k < length (el_contexts s1) -> running s1 k = true.
Proof.
  induction ops as [|o ops IH]; intros s s1 tr E P R; cbn in E.
  { injection E as <- <-. exact R. }
  destruct (estep s o) as [s' x] eqn:F. destruct (erun s' ops) as [s'' u] eqn:G. injection E as <- <-.
  eapply (IH _ _ _ G).
  - intros e I. apply P. now right.
  - intros k Hk. destruct (contexts_step _ _ _ _ F) as (A1 & A2 & A3 & _).
    destruct (Nat.lt_ge_cases k (length (el_contexts s))) as [L|L]; [rewrite A1; auto|].
    rewrite (A3 _ L Hk). assert (Po := P (o, x) (or_introl eq_refl)). cbn in Po. destruct o; auto.
Qed.
Lemma stays_run ops k : forall s s1 tr, erun s ops = (s1, tr) -> k < length (el_contexts s) -> running s1 k = running s k.
Proof.
  induction ops as [|o ops IH]; intros s s1 tr E Hk; cbn in E.
  { injection E as <- <-. reflexivity. }
  destruct (estep s o) as [s' x] eqn:F. destruct (erun s' ops) as [s'' u] eqn:G. injection E as <- <-.
  destruct (contexts_step _ _ _ _ F) as (A1 & A2 & _). rewrite (IH _ _ _ G) by lia. auto.
Qed.
Theorem runs t r ops s tr x : erun (element_new t r) ops = (s, tr) -> (t = true \/ r = true) -> permitted tr ->
  told_worklet (took tr) = Some x -> running s x = true.
Proof.
  intros E A P T. pose proof (sounds_run t _ _ [] _ _ (sounds_new t r) E) as [K G L W V]. cbn [app] in *.
  eapply running_run; eauto.
  - intros k Hk. destruct t; cbn in *; [lia|]. destruct A as [A|A]; [discriminate|]. subst r. assert (k = 0) as -> by lia. reflexivity.
  - apply W. apply in_or_app. left. now apply told_in.
Qed.
(** A context made while the page may not play is never started. *)
Theorem never_runs ops s tr : erun (element_new false false) ops = (s, tr) -> running s 0 = false.
Proof. intros E. rewrite (stays_run _ 0 _ _ _ E) by (cbn; lia). reflexivity. Qed.
End Element.

(** * The publishing element *)

Lemma attr_run_app parse_url a : forall s b, attr_run parse_url s (a ++ b) =
  (let (s1, x) := attr_run parse_url s a in let (s2, y) := attr_run parse_url s1 b in (s2, x ++ y)).
Proof.
  induction a as [|[k v] a IH]; intros s b; cbn.
  - destruct (attr_run parse_url s b); reflexivity.
  - destruct (attr_step parse_url s k v) as [s1 x]. rewrite IH. destruct (attr_run parse_url s1 a) as [s2 y].
    destruct (attr_run parse_url s2 b) as [s3 z]. now rewrite app_assoc.
Qed.
Lemma value_snoc a l e : value a (l ++ [e]) = if attr_eqb a (fst e) then snd e else value a l.
Proof. unfold value. now rewrite fold_left_app. Qed.
Theorem attributes parse_url l :
  let s := fst (attr_run parse_url publisher_new l) in
  pu_video s = nothing (value ANoVideo l) /\ pu_audio s = nothing (value ANoAudio l) /\ pu_device s = value ADevice l.
Proof.
  induction l as [|[k v] l IH] using rev_ind; [repeat split|]. rewrite attr_run_app, !value_snoc.
  destruct (attr_run parse_url publisher_new l) as [s x]. cbn in IH. destruct IH as (V & A & D). cbn.
  destruct k; cbn; auto. destruct (nothing v); cbn; auto. destruct (parse_url _); cbn; auto.
Qed.
Theorem posts_urls parse_url l : snd (attr_run parse_url publisher_new l) =
  snd (attr_run parse_url publisher_new (filter (fun e => attr_eqb AUrl (fst e)) l)).
Proof.
  assert (H : forall l s1 s2, snd (attr_run parse_url s1 l) = snd (attr_run parse_url s2 (filter (fun e => attr_eqb AUrl (fst e)) l))).
  { clear l. induction l as [|[k v] l IH]; intros s1 s2; [reflexivity|]. cbn [filter fst].
    assert (F : forall s, attr_eqb AUrl k = false -> snd (attr_step parse_url s k v) = []) by (intros s; destruct k; cbn; auto; discriminate).
    assert (G : attr_eqb AUrl k = true -> snd (attr_step parse_url s1 k v) = snd (attr_step parse_url s2 k v)).
    { destruct k; cbn; try discriminate. intros _. destruct (nothing v); auto. destruct (parse_url _); auto. }
    destruct (attr_eqb AUrl k) eqn:E.
    - cbn [attr_run]. specialize (G eq_refl). destruct (attr_step parse_url s1 k v) as [t1 x1], (attr_step parse_url s2 k v) as [t2 x2].
      cbn in G. subst x2. specialize (IH t1 t2). destruct (attr_run parse_url t1 l), (attr_run parse_url t2 _). cbn in *. now rewrite IH.
    - cbn [attr_run]. specialize (F s1 eq_refl). destruct (attr_step parse_url s1 k v) as [t1 x1]. cbn in F. subst x1.
      specialize (IH t1 s2). destruct (attr_run parse_url t1 l). cbn in *. exact IH. }
  apply H.
Qed.
