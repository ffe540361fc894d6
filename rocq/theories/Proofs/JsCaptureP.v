From Coq Require Import List Bool Arith Lia.
From Verif.Model Require Import JsCapture.
From Verif.Spec Require Import JsCaptureSpec.
Import ListNotations.

Definition wantf (x : option device * bool * bool) (e : cev) := match e with EWant d a v => (d, a, v) | _ => x end.
Lemma wants_app l m : wants (l ++ m) = fold_left wantf m (wants l).
Proof. unfold wants. rewrite fold_left_app. reflexivity. Qed.

(** ** The requests *)
Record RInv (r : list (asker * bool)) (l : clog) : Prop := {
  r_ask : forall k w, In (EAsk k w) l <-> exists b, nth_error r k = Some (w, b);
  r_off : forall k w b, nth_error r k = Some (w, b) -> (b = false <-> In (EGranted k) l \/ In (EDenied k) l);
  r_len : forall k, In (EGranted k) l \/ In (EDenied k) l -> k < length r }.

Definition plain (e : cev) : Prop := match e with EAsk _ _ | EGranted _ | EDenied _ => False | _ => True end.
Lemma R_plain r l e : plain e -> RInv r l -> RInv r (l ++ [e]).
Proof.
  intros P [A O L].
  assert (X : forall x, ~ plain x -> In x (l ++ [e]) <-> In x l).
  { intros x Hx. rewrite in_app_iff. split; [|tauto]. intros [H|[H|[]]]; [exact H|subst; contradiction]. }
  assert (G : forall k, In (EGranted k) (l ++ [e]) <-> In (EGranted k) l) by (intros; apply X; cbn; tauto).
  assert (D : forall k, In (EDenied k) (l ++ [e]) <-> In (EDenied k) l) by (intros; apply X; cbn; tauto).
  split; intros.
  - rewrite X by (cbn; tauto). apply A.
  - rewrite G, D. eapply O; eassumption.
  - rewrite G, D in H. apply L, H.
Qed.
Lemma R_ask r l w : RInv r l -> RInv (r ++ [(w, true)]) (l ++ [EAsk (length r) w]).
Proof.
  intros [A O L].
  assert (G : forall k, In (EGranted k) (l ++ [EAsk (length r) w]) <-> In (EGranted k) l).
  { intros. rewrite in_app_iff. split; [|tauto]. intros [H|[H|[]]]; [exact H|discriminate]. }
  assert (D : forall k, In (EDenied k) (l ++ [EAsk (length r) w]) <-> In (EDenied k) l).
  { intros. rewrite in_app_iff. split; [|tauto]. intros [H|[H|[]]]; [exact H|discriminate]. }
  split; intros.
  - rewrite in_app_iff, A. split.
    + intros [[b H]|[H|[]]].
      * exists b. rewrite nth_error_app1; [exact H|]. apply nth_error_Some. rewrite H. discriminate.
      * injection H as <- <-. exists true. rewrite nth_error_app2, Nat.sub_diag by lia. reflexivity.
    + intros [b H]. destruct (lt_dec k (length r)) as [Hk|Hk].
      * rewrite nth_error_app1 in H by exact Hk. left. exists b. exact H.
      * rewrite nth_error_app2 in H by lia. destruct (k - length r) as [|n] eqn:E.
        -- cbn in H. injection H as -> _. right; left. f_equal. lia.
        -- cbn in H. destruct n; discriminate.
  - rewrite G, D. destruct (lt_dec k (length r)) as [Hk|Hk].
    + rewrite nth_error_app1 in H by exact Hk. eapply O; eassumption.
    + rewrite nth_error_app2 in H by lia. destruct (k - length r) as [|n] eqn:E; [|cbn in H; destruct n; discriminate].
      cbn in H. injection H as <- <-. split; [discriminate|]. intros Y. apply L in Y. lia.
  - rewrite G, D in H. apply L in H. rewrite app_length. cbn. lia.
Qed.
Lemma off_nth r k j : nth_error (req_off r k) j = if Nat.eqb j k then option_map (fun x => (fst x, false)) (nth_error r j) else nth_error r j.
Proof.
  revert k j. induction r as [|[w b] r IH]; intros k j.
  - destruct k; cbn; destruct j; cbn; try reflexivity; destruct (Nat.eqb _ _); reflexivity.
  - destruct k; cbn.
    + destruct j; reflexivity.
    + destruct j; cbn; [reflexivity|]. apply IH.
Qed.
Lemma off_len r k : length (req_off r k) = length r.
Proof. revert k. induction r as [|[w b] r IH]; intros [|k]; cbn; auto. Qed.
Lemma R_off r l k w e : RInv r l -> nth_error r k = Some (w, true) -> (e = EGranted k \/ e = EDenied k) -> RInv (req_off r k) (l ++ [e]).
Proof.
  intros [A O L] Hk He. split; intros.
  - rewrite in_app_iff, A. split.
    + intros [[b H]|[H|[]]]; [|destruct He; subst; discriminate].
      rewrite off_nth. destruct (Nat.eqb_spec k0 k) as [->|]; [rewrite H; cbn; eauto|eauto].
    + intros [b H]. left. rewrite off_nth in H. destruct (Nat.eqb_spec k0 k) as [->|]; [|eauto].
      rewrite Hk in H. cbn in H. injection H as <- _. eauto.
  - rewrite off_nth in H. destruct (Nat.eqb_spec k0 k) as [->|N].
    + rewrite Hk in H. cbn in H. injection H as <- <-. split; [|reflexivity]. intros _.
      rewrite !in_app_iff. destruct He as [->| ->]; cbn; tauto.
    + rewrite (O _ _ _ H), !in_app_iff. split; [tauto|].
      intros [[Y|[Y|[]]]|[Y|[Y|[]]]]; try tauto; destruct He as [->| ->]; try discriminate; injection Y as ->; contradiction.
  - rewrite off_len. rewrite !in_app_iff in H.
    assert (Hl : k < length r) by (apply nth_error_Some; rewrite Hk; discriminate).
    destruct H as [[Y|[Y|[]]]|[Y|[Y|[]]]]; try (apply L; tauto); destruct He as [->| ->]; try discriminate; injection Y as <-; exact Hl.
Qed.
Lemma R_pending r l k : RInv r l -> pending l k <-> exists w, nth_error r k = Some (w, true).
Proof.
  intros [A O L]. split.
  - intros [[w Hw] [G D]]. apply A in Hw. destruct Hw as [[] H]; [eauto|]. destruct (O _ _ _ H) as [X _]. destruct (X eq_refl); contradiction.
  - intros [w H]. split; [|].
    + exists w. apply A. eauto.
    + destruct (O _ _ _ H) as [_ X]. split; intros Y; [specialize (X (or_introl Y))|specialize (X (or_intror Y))]; discriminate.
Qed.

(** The open requests *)
Definition opens (r : list (asker * bool)) : list asker := map fst (filter snd r).
Lemma opens_app r m : opens (r ++ m) = opens r ++ opens m.
Proof. unfold opens. rewrite filter_app, map_app. reflexivity. Qed.
Lemma opens_off r k w : nth_error r k = Some (w, true) -> exists a b, opens r = a ++ w :: b /\ opens (req_off r k) = a ++ b.
Proof.
  revert k. induction r as [|[w' b'] r IH]; intros [|k] H; cbn in H; try discriminate.
  - injection H as -> ->. exists [], (opens r). split; reflexivity.
  - destruct (IH _ H) as (a & b & E1 & E2). unfold opens in *. cbn. destruct b'; cbn; rewrite E1, E2.
    + exists (w' :: a), b. split; reflexivity.
    + exists a, b. split; reflexivity.
Qed.
Lemma opens_nil r : (forall k w, nth_error r k <> Some (w, true)) -> opens r = [].
Proof.
  induction r as [|[w b] r IH]; intros H; [reflexivity|]. unfold opens in *. cbn. destruct b.
  - exfalso. apply (H 0 w). reflexivity.
  - apply IH. intros k w'. apply (H (S k)).
Qed.

(** ** The tracks *)
Record TInv (s : capture) (l : clog) : Prop := {
  t_rec : forall t x, In (ERec t x) l -> t < c_tracks s;
  t_stop : forall t, In (EStop t) l -> exists x, In (ERec t x) l;
  t_kind : forall t x y, In (ERec t x) l -> In (ERec t y) l -> x = y }.
(** What is in the slots records; under [unhurried], nothing else does. *)
Record SInv (s : capture) (l : clog) : Prop := {
  s_audio : forall t, recording l t KAudio <-> c_audio s = Some t;
  s_video : forall t, recording l t KVideo <-> c_video s = Some t }.
(** The slots are within the tracks. *)
Record PInv (s : capture) (l : clog) : Prop := {
  p_audio : forall t, c_audio s = Some t -> In (ERec t KAudio) l;
  p_video : forall t, c_video s = Some t -> In (ERec t KVideo) l }.

Definition AInv (s : capture) : Prop :=
  c_asked_a s = calls_for (c_dev s, c_aen s, c_ven s) CamAudio && negb (c_dead s) /\
  c_asked_v s = calls_for (c_dev s, c_aen s, c_ven s) CamVideo && negb (c_dead s) /\
  c_asked_s s = calls_for (c_dev s, c_aen s, c_ven s) Both && negb (c_dead s).

Record OInv (s : capture) : Prop := {
  o_nodup : NoDup (opens (c_reqs s));
  o_a : In CamAudio (opens (c_reqs s)) -> c_audio s = None /\ c_asked_a s = true;
  o_v : In CamVideo (opens (c_reqs s)) -> c_video s = None /\ c_asked_v s = true;
  o_s : In Both (opens (c_reqs s)) -> c_audio s = None /\ c_video s = None /\ c_asked_s s = true;
  o_audio : c_audio s <> None -> c_asked_a s || c_asked_s s = true;
  o_video : c_video s <> None -> c_asked_v s || c_asked_s s = true }.


(** ** The effects, without their branches *)
Definition q_a (s : capture) := is_dev s Camera && c_aen s && negb (c_dead s).
Definition q_v (s : capture) := is_dev s Camera && c_ven s && negb (c_dead s).
Definition q_s (s : capture) := is_dev s Screen && (c_aen s || c_ven s) && negb (c_dead s).
Definition opt (q : bool) (w : asker) : list (asker * bool) := if q then [(w, true)] else [].

Definition effs (ra rv rs : bool) : capture -> capture * list cev :=
  seq2 (if ra then run_cam_audio else same) (seq2 (if rv then run_cam_video else same) (if rs then run_screen else same)).
Lemma effs_state ra rv rs s :
  fst (effs ra rv rs s) =
  Capture (c_dev s) (c_aen s) (c_ven s)
    (if (ra && c_asked_a s) || (rs && c_asked_s s) then None else c_audio s)
    (if (rv && c_asked_v s) || (rs && c_asked_s s) then None else c_video s)
    (if ra then q_a s else c_asked_a s) (if rv then q_v s else c_asked_v s) (if rs then q_s s else c_asked_s s)
    (c_reqs s ++ opt (ra && q_a s) CamAudio ++ opt (rv && q_v s) CamVideo ++ opt (rs && q_s s) Both) (c_tracks s) (c_dead s).
Proof.
  destruct s as [d a v au vi aa av as_ r t dead]. unfold effs, seq2, same, run_cam_audio, run_cam_video, run_screen, q_a, q_v, q_s, is_dev.
  cbn [c_dev c_aen c_ven c_audio c_video c_asked_a c_asked_v c_asked_s c_reqs c_tracks c_dead].
  destruct ra, rv, rs, d as [[]|]; destruct a, v, dead; cbn [andb orb negb fst c_dev c_aen c_ven c_audio c_video c_asked_a c_asked_v c_asked_s c_reqs c_tracks c_dead opt app];
    rewrite <- ?app_assoc, ?app_nil_r; cbn [app]; destruct aa, av, as_; reflexivity.
Qed.

(** A change is a run of some of the effects. *)
Definition rerun (s : capture) (o : cop) : option (capture * cev * (bool * bool * bool)) :=
  let nop (b : bool) := if c_dead s then false else b in
  match o with
  | CDevice d => if dev_eqb d (c_dev s) then None else Some (with_want s d (c_aen s) (c_ven s), EWant d (c_aen s) (c_ven s), (nop true, nop true, nop true))
  | CAudio b => if Bool.eqb b (c_aen s) then None else Some (with_want s (c_dev s) b (c_ven s), EWant (c_dev s) b (c_ven s), (nop (is_dev s Camera), false, nop (is_dev s Screen)))
  | CVideo b => if Bool.eqb b (c_ven s) then None else Some (with_want s (c_dev s) (c_aen s) b, EWant (c_dev s) (c_aen s) b, (false, nop (is_dev s Camera), nop (is_dev s Screen && negb (c_aen s))))
  | CClose => if c_dead s then None else
      Some (Capture (c_dev s) (c_aen s) (c_ven s) (c_audio s) (c_video s) (c_asked_a s) (c_asked_v s) (c_asked_s s) (c_reqs s) (c_tracks s) true, EClosed, (true, true, true))
  | _ => None
  end.
Definition change (o : cop) : Prop := match o with CGranted _ _ | CDenied _ => False | _ => True end.

Lemma same_r f s : seq2 f same s = f s.
Proof. unfold seq2, same. destruct (f s) as [s' a]. rewrite app_nil_r. reflexivity. Qed.
Lemma same_l f s : seq2 same f s = f s.
Proof. unfold seq2, same. destruct (f s) as [s' a]. reflexivity. Qed.
Lemma effs_none s : effs false false false s = (s, []).
Proof. reflexivity. Qed.

Lemma step_change s o : change o ->
  c_step s o = match rerun s o with None => (s, []) | Some (s', e, (ra, rv, rs)) => emit e (effs ra rv rs s') end.
Proof.
  intros Ho. destruct o as [d'|b|b|k snd|k|]; try contradiction; cbn [c_step rerun].
  - destruct (dev_eqb d' (c_dev s)); [reflexivity|]. cbn [with_want c_aen c_ven c_dead]. destruct (c_dead s); reflexivity.
  - destruct (Bool.eqb b (c_aen s)); [reflexivity|].
    change (is_dev (with_want s (c_dev s) b (c_ven s)) Camera) with (is_dev s Camera).
    change (is_dev (with_want s (c_dev s) b (c_ven s)) Screen) with (is_dev s Screen).
    cbn [with_want c_aen c_ven c_dead c_dev]. destruct (c_dead s); [rewrite effs_none; reflexivity|].
    unfold effs. set (s' := with_want _ _ _ _). f_equal. unfold seq2, same.
    destruct ((if is_dev s Camera then _ else _) s') as [x y]. destruct ((if is_dev s Screen then _ else _) x) as [x' y']. reflexivity.
  - destruct (Bool.eqb b (c_ven s)); [reflexivity|].
    change (is_dev (with_want s (c_dev s) (c_aen s) b) Camera) with (is_dev s Camera).
    change (is_dev (with_want s (c_dev s) (c_aen s) b) Screen) with (is_dev s Screen).
    cbn [with_want c_aen c_ven c_dead c_dev]. destruct (c_dead s); [rewrite effs_none; reflexivity|].
    unfold effs. set (s' := with_want _ _ _ _). f_equal. unfold seq2, same.
    destruct ((if is_dev s Camera then _ else _) s') as [x y]. destruct ((if is_dev s Screen && negb (c_aen s) then _ else _) x) as [x' y']. reflexivity.
  - destruct (c_dead s); reflexivity.
Qed.

Lemma A_step s o : AInv s -> AInv (fst (c_step s o)).
Proof.
  intros H.
  assert (G : change o \/ ~ change o) by (destruct o; cbn; tauto). destruct G as [G|G].
  - rewrite step_change by exact G. destruct (rerun s o) as [[[s' e] [[ra rv] rs]]|] eqn:E; [|exact H].
    cbn [emit fst]. rewrite effs_state. unfold AInv, q_a, q_v, q_s, is_dev in *.
    destruct s as [d a v au vi aa av as_ r t dead]. cbn [c_dev c_aen c_ven c_asked_a c_asked_v c_asked_s c_dead] in *. destruct H as (-> & -> & ->).
    destruct o as [d'|b|b|k snd|k|]; try contradiction; cbn [rerun c_dead c_dev c_aen c_ven with_want] in E.
    + destruct (dev_eqb d' d); [discriminate|]. injection E as <- <- <- <- <-. cbn. destruct d as [[]|], d' as [[]|], a, v, dead; cbn; auto.
    + destruct (Bool.eqb b a); [discriminate|]. injection E as <- <- <- <- <-. cbn. destruct d as [[]|], a, b, v, dead; cbn; auto.
    + destruct (Bool.eqb b v); [discriminate|]. injection E as <- <- <- <- <-. cbn. destruct d as [[]|], a, b, v, dead; cbn; auto.
    + destruct dead; [discriminate|]. injection E as <- <- <- <- <-. cbn. destruct d as [[]|], a, v; cbn; auto.
  - destruct o as [d'|b|b|k snd|k|]; try (exfalso; apply G; exact I); cbn [c_step];
      (destruct (nth_error (c_reqs s) k) as [[w []]|]; [try destruct w; try destruct snd; exact H|exact H|exact H]).
Qed.

Lemma O_change s o : change o -> AInv s -> opens (c_reqs s) = [] -> OInv s -> OInv (fst (c_step s o)).
Proof.
  intros Ho HA Hr HO. rewrite step_change by exact Ho. destruct (rerun s o) as [[[s' e] [[ra rv] rs]]|] eqn:E; [|exact HO].
  cbn [emit fst]. rewrite effs_state. destruct HO as [_ _ _ _ Oa Ov].
  assert (Hr' : c_reqs s' = c_reqs s /\ c_audio s' = c_audio s /\ c_video s' = c_video s /\ c_asked_a s' = c_asked_a s /\ c_asked_v s' = c_asked_v s /\ c_asked_s s' = c_asked_s s).
  { destruct o; cbn in E; try discriminate; match type of E with (if ?b then _ else _) = _ => destruct b end; try discriminate; injection E as <- <- <- <- <-; repeat split. }
  destruct Hr' as (E1 & E2 & E3 & E4 & E5 & E6). rewrite E1, E2, E3, E4, E5, E6.
  (* which effects ask again, and with what *)
  assert (K : (rs = true -> q_s s' = true -> (ra && q_a s' = false /\ rv && q_v s' = false)) /\
              (ra && q_a s' = true -> c_asked_a s = true -> True)) by
    (unfold q_a, q_v, q_s, is_dev; destruct (c_dev s') as [[]|]; cbn; rewrite ?andb_false_r; auto; split; intros; auto; discriminate).
  assert (Q : (ra = true -> c_asked_a s || c_asked_s s = true -> rs = true \/ c_asked_s s = false) /\
              (rv = true -> c_asked_v s || c_asked_s s = true -> rs = true \/ c_asked_s s = false) /\
              (rs = true -> ra = true \/ c_asked_a s = false) /\ (rs = true -> rv = true \/ c_asked_v s = false)).
  { unfold AInv in HA. destruct s as [d a v au vi aa av as_ r t dead]. cbn [c_dev c_aen c_ven c_asked_a c_asked_v c_asked_s c_dead c_reqs] in *. destruct HA as (-> & -> & ->).
    destruct o as [d'|b|b|k snd|k|]; try contradiction; cbn [rerun c_dead c_dev c_aen c_ven with_want] in E.
    - destruct (dev_eqb d' d); [discriminate|]. injection E as <- <- <- <- <-. destruct dead; cbn; rewrite ?andb_false_r; intuition (discriminate || auto).
    - destruct (Bool.eqb b a); [discriminate|]. injection E as <- <- <- <- <-. unfold is_dev; cbn. destruct d as [[]|], dead; cbn; rewrite ?andb_false_r; intuition (discriminate || auto).
    - destruct (Bool.eqb b v); [discriminate|]. injection E as <- <- <- <- <-. unfold is_dev; cbn. destruct d as [[]|], dead; cbn; rewrite ?andb_false_r; intuition (discriminate || auto).
    - destruct dead; [discriminate|]. injection E as <- <- <- <- <-. intuition auto. }
  destruct Q as (Q1 & Q2 & Q3 & Q4). destruct K as [K _].
  split; cbn [c_reqs c_audio c_video c_asked_a c_asked_v c_asked_s]; rewrite ?opens_app, ?Hr; cbn [app].
  - destruct (ra && q_a s'), (rv && q_v s') eqn:?, (rs && q_s s') eqn:X; cbn; repeat constructor; cbn; try (intuition discriminate).
  - intros Hin. assert (ra && q_a s' = true).
    { destruct (ra && q_a s'), (rv && q_v s'), (rs && q_s s'); cbn in Hin; intuition discriminate. }
    apply andb_true_iff in H. destruct H as [-> H]. split; [|exact H]. cbn [andb].
    destruct (c_asked_a s) eqn:Ya; [reflexivity|]. cbn [orb] in *. destruct (c_asked_s s) eqn:Ys.
    + cbn in Q1. destruct (Q1 eq_refl eq_refl) as [->|]; [reflexivity|discriminate].
    + rewrite andb_false_r. destruct (c_audio s); [|reflexivity]. cbn in Oa. specialize (Oa ltac:(discriminate)). discriminate.
  - intros Hin. assert (rv && q_v s' = true).
    { destruct (ra && q_a s'), (rv && q_v s'), (rs && q_s s'); cbn in Hin; intuition discriminate. }
    apply andb_true_iff in H. destruct H as [-> H]. split; [|exact H]. cbn [andb].
    destruct (c_asked_v s) eqn:Ya; [reflexivity|]. cbn [orb] in *. destruct (c_asked_s s) eqn:Ys.
    + cbn in Q2. destruct (Q2 eq_refl eq_refl) as [->|]; [reflexivity|discriminate].
    + rewrite andb_false_r. destruct (c_video s); [|reflexivity]. cbn in Ov. specialize (Ov ltac:(discriminate)). discriminate.
  - intros Hin. assert (rs && q_s s' = true).
    { destruct (ra && q_a s'), (rv && q_v s'), (rs && q_s s'); cbn in Hin; intuition discriminate. }
    apply andb_true_iff in H. destruct H as [-> H]. split; [|split; [|exact H]]; cbn [andb].
    + destruct (c_asked_s s) eqn:Ys; [rewrite orb_true_r; reflexivity|]. destruct (c_asked_a s) eqn:Ya.
      * destruct (Q3 eq_refl) as [->|]; [reflexivity|discriminate].
      * rewrite andb_false_r. destruct (c_audio s); [|reflexivity]. specialize (Oa ltac:(discriminate)). discriminate.
    + destruct (c_asked_s s) eqn:Ys; [rewrite orb_true_r; reflexivity|]. destruct (c_asked_v s) eqn:Ya.
      * destruct (Q4 eq_refl) as [->|]; [reflexivity|discriminate].
      * rewrite andb_false_r. destruct (c_video s); [|reflexivity]. specialize (Ov ltac:(discriminate)). discriminate.
  - destruct ((ra && c_asked_a s) || (rs && c_asked_s s)) eqn:X; [intros []; reflexivity|]. intros Hn. specialize (Oa Hn).
    destruct ra, rs, (c_asked_a s), (c_asked_s s); cbn in *; try discriminate; rewrite ?orb_true_r; auto.
  - destruct ((rv && c_asked_v s) || (rs && c_asked_s s)) eqn:X; [intros []; reflexivity|]. intros Hn. specialize (Ov Hn).
    destruct rv, rs, (c_asked_v s), (c_asked_s s); cbn in *; try discriminate; rewrite ?orb_true_r; auto.
Qed.

Lemma in_remove (a b : list asker) w x : In x (a ++ b) -> In x (a ++ w :: b).
Proof. rewrite !in_app_iff. cbn. tauto. Qed.
Lemma O_answer s o : ~ change o -> AInv s -> OInv s -> OInv (fst (c_step s o)).
Proof.
  intros Ho HA HO. destruct o as [d'|b|b|k snd|k|]; try (exfalso; apply Ho; exact I); cbn [c_step];
    (destruct (nth_error (c_reqs s) k) as [[w []]|] eqn:E; [|exact HO|exact HO]); destruct (opens_off _ _ _ E) as (x & y & E1 & E2);
    destruct HO as [ND OA OV OS Oa Ov]; rewrite E1 in *.
  - assert (NI : ~ In w (x ++ y)) by (apply NoDup_remove_2 in ND; exact ND). apply NoDup_remove_1 in ND.
    assert (IW : In w (x ++ w :: y)) by (rewrite in_app_iff; cbn; tauto).
    assert (X : c_asked_a s && c_asked_s s = false /\ c_asked_v s && c_asked_s s = false).
    { destruct HA as (-> & -> & ->). destruct (c_dev s) as [[]|]; cbn; rewrite ?andb_false_r; auto. }
    destruct X as [X1 X2].
    assert (RA : In CamAudio (x ++ y) -> c_audio s = None /\ c_asked_a s = true) by (intros Hin; apply OA, in_remove, Hin).
    assert (RV : In CamVideo (x ++ y) -> c_video s = None /\ c_asked_v s = true) by (intros Hin; apply OV, in_remove, Hin).
    assert (RS : In Both (x ++ y) -> c_audio s = None /\ c_video s = None /\ c_asked_s s = true) by (intros Hin; apply OS, in_remove, Hin).
    destruct w.
    + destruct (OA IW) as [_ Z]. rewrite Z in *. cbn [andb orb] in *. clear OA OV OS.
      split; cbn [fst c_reqs c_audio c_video c_asked_a c_asked_v c_asked_s]; rewrite ?E2, ?Z; auto; intros Hin; try contradiction.
      destruct (RS Hin) as (_ & _ & F). congruence.
    + destruct (OV IW) as [_ Z]. rewrite Z in *. cbn [andb orb] in *. clear OA OV OS.
      split; cbn [fst c_reqs c_audio c_video c_asked_a c_asked_v c_asked_s]; rewrite ?E2, ?Z; auto; intros Hin; try contradiction.
      destruct (RS Hin) as (_ & _ & F). congruence.
    + destruct (OS IW) as (_ & _ & Z). rewrite Z in *. rewrite ?andb_true_r, ?orb_true_r in *. clear OA OV OS.
      destruct snd; split; cbn [fst c_reqs c_audio c_video c_asked_a c_asked_v c_asked_s]; rewrite ?E2, ?Z, ?orb_true_r; auto; intros Hin; try contradiction;
        try (destruct (RA Hin) as (_ & F); congruence); try (destruct (RV Hin) as (_ & F); congruence).
  - apply NoDup_remove_1 in ND. split; cbn [fst c_reqs c_audio c_video c_asked_a c_asked_v c_asked_s]; rewrite ?E2; auto using in_remove.
Qed.

(** ** The log *)
Lemma R_app r l E : Forall plain E -> RInv r l -> RInv r (l ++ E).
Proof.
  revert l. induction E as [|e E IH]; intros l H R; [rewrite app_nil_r; exact R|]. inversion H; subst.
  replace (l ++ e :: E) with ((l ++ [e]) ++ E) by (rewrite <- app_assoc; reflexivity). apply IH; [assumption|]. apply R_plain; assumption.
Qed.
Definition stops (E : list cev) : Prop := Forall (fun e => match e with EStop _ => True | _ => False end) E.
Lemma stops_of o : stops (stop_of o).
Proof. destruct o; repeat constructor. Qed.
Lemma stops_plain E : stops E -> Forall plain E.
Proof. apply Forall_impl. intros []; cbn; tauto. Qed.

(** The events of an effect: some stops, perhaps a request *)
Definition asks (n : nat) (q : bool) (w : asker) : list cev := if q then [EAsk n w] else [].
Lemma ev_a s : snd (run_cam_audio s) = (if c_asked_a s then stop_of (c_audio s) else []) ++ asks (length (c_reqs s)) (q_a s) CamAudio.
Proof. unfold run_cam_audio, asks. fold (q_a s). destruct (q_a s); cbn; rewrite ?app_nil_r; reflexivity. Qed.
Lemma st_a s : fst (run_cam_audio s) = fst (effs true false false s).
Proof. unfold effs, seq2, same. destruct (run_cam_audio s). reflexivity. Qed.
Lemma ev_v s : snd (run_cam_video s) = (if c_asked_v s then stop_of (c_video s) else []) ++ asks (length (c_reqs s)) (q_v s) CamVideo.
Proof. unfold run_cam_video, asks. fold (q_v s). destruct (q_v s); cbn; rewrite ?app_nil_r; reflexivity. Qed.
Lemma st_v s : fst (run_cam_video s) = fst (effs false true false s).
Proof. unfold effs, seq2, same. destruct (run_cam_video s). reflexivity. Qed.
Lemma ev_s s : snd (run_screen s) = (if c_asked_s s then stop_of (c_video s) ++ stop_of (c_audio s) else []) ++ asks (length (c_reqs s)) (q_s s) Both.
Proof. unfold run_screen, asks. fold (q_s s). destruct (q_s s); cbn; rewrite ?app_nil_r; reflexivity. Qed.
Lemma st_s s : fst (run_screen s) = fst (effs false false true s).
Proof. unfold effs, seq2, same. destruct (run_screen s). reflexivity. Qed.

Record LInv (s : capture) (l : clog) : Prop := { l_r : RInv (c_reqs s) l; l_t : TInv s l; l_p : PInv s l }.

(** Adding stops of slots that are emptied, and a request *)
Lemma L_eff s s' l E n q w :
  LInv s l -> stops E -> n = length (c_reqs s) -> c_reqs s' = c_reqs s ++ opt q w -> c_tracks s' = c_tracks s ->
  (c_audio s' = None \/ c_audio s' = c_audio s) -> (c_video s' = None \/ c_video s' = c_video s) ->
  (forall t, In (EStop t) E -> c_audio s = Some t \/ c_video s = Some t) ->
  LInv s' (l ++ E ++ asks n q w).
Proof.
  intros [R T P] HE -> E1 E2 HA HV HS.
  assert (X : forall t x, In (ERec t x) (l ++ E ++ asks (length (c_reqs s)) q w) <-> In (ERec t x) l).
  { intros t x. rewrite !in_app_iff. split; [|tauto]. intros [Y|[Y|Y]]; [exact Y| |].
    - unfold stops in HE. rewrite Forall_forall in HE. destruct (HE _ Y).
    - unfold asks in Y. destruct q; [destruct Y as [Y|[]]; discriminate|destruct Y]. }
  assert (X2 : forall t, In (EStop t) (l ++ E ++ asks (length (c_reqs s)) q w) -> In (EStop t) l \/ In (EStop t) E).
  { intros t. rewrite !in_app_iff. intros [Y|[Y|Y]]; [tauto|tauto|]. unfold asks in Y. destruct q; [destruct Y as [Y|[]]; discriminate|destruct Y]. }
  split.
  - rewrite app_assoc, E1. assert (R' : RInv (c_reqs s) (l ++ E)) by (apply R_app; [apply stops_plain, HE|exact R]).
    destruct q; cbn; [apply R_ask; exact R'|rewrite !app_nil_r; exact R'].
  - destruct T as [T1 T2 T3]. split.
    + intros t x H. rewrite E2. apply X in H. eapply T1, H.
    + intros t H. apply X2 in H. destruct H as [H|H].
      * destruct (T2 _ H) as [x Hx]. exists x. apply X, Hx.
      * destruct (HS _ H) as [Y|Y]; [exists KAudio|exists KVideo]; apply X; [apply (p_audio _ _ P), Y|apply (p_video _ _ P), Y].
    + intros t x y H1 H2. apply X in H1. apply X in H2. eapply T3; eassumption.
  - split; intros t H; apply X.
    + apply (p_audio _ _ P). destruct HA as [HA|HA]; rewrite HA in H; [discriminate|exact H].
    + apply (p_video _ _ P). destruct HV as [HV|HV]; rewrite HV in H; [discriminate|exact H].
Qed.
Lemma rec_eff l E n q w t x : stops E -> recording (l ++ E ++ asks n q w) t x <-> recording l t x /\ ~ In (EStop t) E.
Proof.
  intros HE. unfold recording. rewrite !in_app_iff. split.
  - intros [[Y|[Y|Y]] Z]; [tauto| |].
    + unfold stops in HE. rewrite Forall_forall in HE. destruct (HE _ Y).
    + unfold asks in Y. destruct q; [destruct Y as [Y|[]]; discriminate|destruct Y].
  - intros [[Y Z] Z']. split; [tauto|]. intros [K|[K|K]]; try contradiction. unfold asks in K. destruct q; [destruct K as [K|[]]; discriminate|destruct K].
Qed.
Lemma in_stop o t : In (EStop t) (stop_of o) <-> o = Some t.
Proof. destruct o; cbn; split; intros H; try discriminate; try (destruct H as [H|[]]; congruence); try contradiction. injection H as ->. tauto. Qed.

Definition keeps (f : capture -> capture * list cev) : Prop :=
  forall s l, LInv s l -> LInv (fst (f s)) (l ++ snd (f s)) /\ (SInv s l -> SInv (fst (f s)) (l ++ snd (f s))).
Lemma slots_differ s l t : LInv s l -> c_audio s = Some t -> c_video s = Some t -> False.
Proof. intros [_ T P] H1 H2. assert (KAudio = KVideo) by (eapply (t_kind _ _ T); [apply (p_audio _ _ P), H1|apply (p_video _ _ P), H2]). discriminate. Qed.

Lemma keeps_a : keeps run_cam_audio.
Proof.
  intros s l L. rewrite ev_a, st_a, effs_state.
  assert (HS : stops (if c_asked_a s then stop_of (c_audio s) else [])) by (destruct (c_asked_a s); [apply stops_of|constructor]).
  split.
  - eapply L_eff; cbn; rewrite ?app_nil_r, ?orb_false_r; try eassumption; try reflexivity.
    + destruct (c_asked_a s); auto.
    + auto.
    + intros t H. destruct (c_asked_a s); [apply in_stop in H; auto|destruct H].
  - intros [SA SV]. split; intros t; rewrite rec_eff by exact HS; cbn; rewrite ?orb_false_r.
    + rewrite SA. destruct (c_asked_a s); [rewrite in_stop; split; [tauto|discriminate]|cbn; tauto].
    + rewrite SV. destruct (c_asked_a s); [rewrite in_stop|cbn; tauto]. split; [tauto|]. intros H. split; [exact H|]. intros H'. eapply slots_differ; eassumption.
Qed.
Lemma keeps_v : keeps run_cam_video.
Proof.
  intros s l L. rewrite ev_v, st_v, effs_state.
  assert (HS : stops (if c_asked_v s then stop_of (c_video s) else [])) by (destruct (c_asked_v s); [apply stops_of|constructor]).
  split.
  - eapply L_eff; cbn; rewrite ?app_nil_r, ?orb_false_r; try eassumption; try reflexivity.
    + auto.
    + destruct (c_asked_v s); auto.
    + intros t H. destruct (c_asked_v s); [apply in_stop in H; auto|destruct H].
  - intros [SA SV]. split; intros t; rewrite rec_eff by exact HS; cbn; rewrite ?orb_false_r.
    + rewrite SA. destruct (c_asked_v s); [rewrite in_stop|cbn; tauto]. split; [tauto|]. intros H. split; [exact H|]. intros H'. eapply slots_differ; eassumption.
    + rewrite SV. destruct (c_asked_v s); [rewrite in_stop; split; [tauto|discriminate]|cbn; tauto].
Qed.
Lemma keeps_s : keeps run_screen.
Proof.
  intros s l L. rewrite ev_s, st_s, effs_state.
  assert (HS : stops (if c_asked_s s then stop_of (c_video s) ++ stop_of (c_audio s) else [])) by (destruct (c_asked_s s); [apply Forall_app; split; apply stops_of|constructor]).
  split.
  - eapply L_eff; cbn; try eassumption; try reflexivity.
    + destruct (c_asked_s s); auto.
    + destruct (c_asked_s s); auto.
    + intros t H. destruct (c_asked_s s); [|destruct H]. rewrite in_app_iff, !in_stop in H. tauto.
  - intros [SA SV]. split; intros t; rewrite rec_eff by exact HS; cbn.
    + rewrite SA. destruct (c_asked_s s); [rewrite in_app_iff, !in_stop; split; [tauto|discriminate]|cbn; tauto].
    + rewrite SV. destruct (c_asked_s s); [rewrite in_app_iff, !in_stop; split; [tauto|discriminate]|cbn; tauto].
Qed.
Lemma keeps_same : keeps same.
Proof. intros s l L. cbn. rewrite app_nil_r. auto. Qed.
Lemma keeps_seq f g : keeps f -> keeps g -> keeps (seq2 f g).
Proof.
  intros F G s l L. unfold seq2. destruct (f s) as [s1 a] eqn:E1. destruct (g s1) as [s2 b] eqn:E2. cbn [fst snd].
  destruct (F s l L) as [F1 F2]. rewrite E1 in *. cbn in *. destruct (G _ _ F1) as [G1 G2]. rewrite E2 in *. cbn in *.
  rewrite app_assoc. auto.
Qed.
Lemma keeps_effs ra rv rs : keeps (effs ra rv rs).
Proof. unfold effs. destruct ra, rv, rs; repeat apply keeps_seq; auto using keeps_a, keeps_v, keeps_s, keeps_same. Qed.

(** An effect emits no [EWant], [EClosed] *)
Definition quiet (e : cev) : Prop := match e with EWant _ _ _ | EClosed => False | _ => True end.
Lemma quiet_a s : Forall quiet (snd (run_cam_audio s)).
Proof. rewrite ev_a. apply Forall_app. split; [destruct (c_asked_a s); [destruct (c_audio s)|]; repeat constructor|destruct (q_a s); repeat constructor]. Qed.
Lemma quiet_v s : Forall quiet (snd (run_cam_video s)).
Proof. rewrite ev_v. apply Forall_app. split; [destruct (c_asked_v s); [destruct (c_video s)|]; repeat constructor|destruct (q_v s); repeat constructor]. Qed.
Lemma quiet_s s : Forall quiet (snd (run_screen s)).
Proof. rewrite ev_s. apply Forall_app. split; [destruct (c_asked_s s); [destruct (c_audio s), (c_video s)|]; repeat constructor|destruct (q_s s); repeat constructor]. Qed.
Lemma quiet_seq f g : (forall s, Forall quiet (snd (f s))) -> (forall s, Forall quiet (snd (g s))) -> forall s, Forall quiet (snd (seq2 f g s)).
Proof. intros F G s. unfold seq2. specialize (F s). destruct (f s) as [s1 a]. specialize (G s1). destruct (g s1) as [s2 b]. cbn in *. apply Forall_app; auto. Qed.
Lemma quiet_effs ra rv rs s : Forall quiet (snd (effs ra rv rs s)).
Proof. unfold effs. revert s. destruct ra, rv, rs; repeat apply quiet_seq; auto using quiet_a, quiet_v, quiet_s; intros; constructor. Qed.
Lemma quiet_wants E x : Forall quiet E -> fold_left wantf E x = x.
Proof. revert x. induction E as [|e E IH]; intros x H; [reflexivity|]. inversion H; subst. cbn. rewrite IH by assumption. destruct e; try reflexivity; contradiction. Qed.
Lemma quiet_closed E : Forall quiet E -> ~ In EClosed E.
Proof. intros H Hin. rewrite Forall_forall in H. destruct (H _ Hin). Qed.

(** ** All steps *)
Record Inv (s : capture) (l : clog) : Prop := {
  i_l : LInv s l;
  i_a : AInv s;
  i_w : wants l = (c_dev s, c_aen s, c_ven s);
  i_d : c_dead s = true <-> In EClosed l;
  i_u : unhurried l -> OInv s /\ SInv s l }.

Lemma unhurried_pre l m : unhurried (l ++ m) -> unhurried l.
Proof.
  intros [A B]. split.
  - intros a d x v b E. apply (A a d x v (b ++ m)). rewrite E, <- app_assoc. reflexivity.
  - intros a b E. apply (B a (b ++ m)). rewrite E, <- app_assoc. reflexivity.
Qed.
Lemma unhurried_now l e m : unhurried (l ++ e :: m) -> (match e with EWant _ _ _ | EClosed => True | _ => False end) -> forall k, ~ pending l k.
Proof. intros [A B] H. destruct e; try contradiction; [eapply A|eapply B]; reflexivity. Qed.

Lemma L_note s s' l e : LInv s l -> (match e with EWant _ _ _ | EClosed => True | _ => False end) ->
  c_reqs s' = c_reqs s -> c_tracks s' = c_tracks s -> c_audio s' = c_audio s -> c_video s' = c_video s -> LInv s' (l ++ [e]).
Proof.
  intros [R [T1 T2 T3] [P1 P2]] He E1 E2 E3 E4.
  assert (X : forall t x, In (ERec t x) (l ++ [e]) <-> In (ERec t x) l).
  { intros t x. rewrite in_app_iff. split; [|tauto]. intros [Y|[Y|[]]]; [exact Y|subst e; destruct He]. }
  assert (X2 : forall t, In (EStop t) (l ++ [e]) <-> In (EStop t) l).
  { intros t. rewrite in_app_iff. split; [|tauto]. intros [Y|[Y|[]]]; [exact Y|subst e; destruct He]. }
  split.
  - rewrite E1. apply R_plain; [destruct e; cbn; tauto|exact R].
  - split.
    + intros t x. rewrite X, E2. apply T1.
    + intros t H. apply X2, T2 in H. destruct H as [x H]. exists x. apply X, H.
    + intros t x y. rewrite !X. apply T3.
  - split; intros t H; apply X; [apply P1; rewrite <- E3; exact H|apply P2; rewrite <- E4; exact H].
Qed.
Lemma rec_note l e t x : (match e with EWant _ _ _ | EClosed => True | _ => False end) -> recording (l ++ [e]) t x <-> recording l t x.
Proof.
  intros He. unfold recording. rewrite !in_app_iff. cbn. destruct e; try contradiction; intuition discriminate.
Qed.

Definition same_media (s s' : capture) : Prop :=
  c_reqs s' = c_reqs s /\ c_tracks s' = c_tracks s /\ c_audio s' = c_audio s /\ c_video s' = c_video s.
Lemma rerun_facts s o s' e r : rerun s o = Some (s', e, r) -> same_media s s' /\
  ((e = EWant (c_dev s') (c_aen s') (c_ven s') /\ c_dead s' = c_dead s) \/ (e = EClosed /\ c_dead s' = true /\ c_dev s' = c_dev s /\ c_aen s' = c_aen s /\ c_ven s' = c_ven s)).
Proof.
  destruct o; cbn [rerun]; intros E; try discriminate; match type of E with (if ?b then _ else _) = _ => destruct b end; try discriminate;
    injection E as <- <- <-; (split; [repeat split|]); cbn; auto 10.
Qed.
Lemma effs_want ra rv rs s : c_dev (fst (effs ra rv rs s)) = c_dev s /\ c_aen (fst (effs ra rv rs s)) = c_aen s /\ c_ven (fst (effs ra rv rs s)) = c_ven s /\ c_dead (fst (effs ra rv rs s)) = c_dead s.
Proof. rewrite effs_state. repeat split. Qed.

Lemma step_inv_change s l o : change o -> Inv s l -> Inv (fst (c_step s o)) (l ++ snd (c_step s o)).
Proof.
  intros Ho I. pose proof (A_step s o (i_a _ _ I)) as HA. pose proof (O_change s o Ho (i_a _ _ I)) as HO.
  rewrite step_change in * by exact Ho. destruct (rerun s o) as [[[s' e] [[ra rv] rs]]|] eqn:E; [|cbn; rewrite app_nil_r; exact I].
  destruct (rerun_facts _ _ _ _ _ E) as [(M1 & M2 & M3 & M4) Fe].
  assert (He : match e with EWant _ _ _ | EClosed => True | _ => False end) by (destruct Fe as [[-> _]|[-> _]]; exact Logic.I).
  cbn [emit fst snd] in *. replace (l ++ e :: snd (effs ra rv rs s')) with ((l ++ [e]) ++ snd (effs ra rv rs s')) by (rewrite <- app_assoc; reflexivity).
  assert (L1 : LInv s' (l ++ [e])) by (eapply L_note; try eassumption; apply (i_l _ _ I)).
  destruct (keeps_effs ra rv rs s' _ L1) as [K1 K2]. destruct (effs_want ra rv rs s') as (W1 & W2 & W3 & W4).
  split.
  - exact K1.
  - exact HA.
  - rewrite !wants_app, (i_w _ _ I), W1, W2, W3, quiet_wants by apply quiet_effs. cbn. destruct Fe as [[-> _]|(-> & _ & -> & -> & ->)]; reflexivity.
  - rewrite W4, !in_app_iff. pose proof (quiet_closed _ (quiet_effs ra rv rs s')). destruct Fe as [[-> F2]|(-> & F2 & _)]; rewrite F2.
    + rewrite (i_d _ _ I). cbn. intuition discriminate.
    + cbn. tauto.
  - intros U.
    assert (Hn : opens (c_reqs s) = []).
    { apply opens_nil. intros k w Hk. rewrite <- app_assoc in U. cbn in U. apply (unhurried_now _ _ _ U He k). apply (R_pending _ _ _ (l_r _ _ (i_l _ _ I))). eauto. }
    destruct (i_u _ _ I) as [U1 [U2 U3]]; [rewrite <- app_assoc in U; eapply unhurried_pre, U|].
    split; [apply HO; assumption|]. apply K2. split; intros t; rewrite rec_note by exact He; [rewrite M3; apply U2|rewrite M4; apply U3].
Qed.

(** A grant or a denial *)
Lemma fresh s l t x : LInv s l -> c_tracks s <= t -> ~ In (ERec t x) l /\ ~ In (EStop t) l.
Proof.
  intros [_ [T1 T2 _] _] H. split; intros Y; [apply T1 in Y; lia|]. apply T2 in Y. destruct Y as [y Y]. apply T1 in Y. lia.
Qed.
Definition recs (E : list cev) : Prop := Forall (fun e => match e with ERec _ _ => True | _ => False end) E.
Lemma L_grant s s' l k w E e : LInv s l -> nth_error (c_reqs s) k = Some (w, true) -> (e = EGranted k \/ e = EDenied k) -> recs E ->
  c_reqs s' = req_off (c_reqs s) k -> c_tracks s <= c_tracks s' ->
  (forall t x, In (ERec t x) E -> c_tracks s <= t < c_tracks s') -> (forall t x y, In (ERec t x) E -> In (ERec t y) E -> x = y) ->
  (forall t, c_audio s' = Some t -> c_audio s = Some t \/ In (ERec t KAudio) E) -> (forall t, c_video s' = Some t -> c_video s = Some t \/ In (ERec t KVideo) E) ->
  LInv s' (l ++ e :: E).
Proof.
  intros L Hk He HE E1 E2 HB HK HA HV. pose proof L as [R [T1 T2 T3] [P1 P2]].
  replace (l ++ e :: E) with ((l ++ [e]) ++ E) by (rewrite <- app_assoc; reflexivity).
  assert (X : forall t x, In (ERec t x) ((l ++ [e]) ++ E) <-> In (ERec t x) l \/ In (ERec t x) E).
  { intros t x. rewrite !in_app_iff. cbn. destruct He as [->| ->]; intuition discriminate. }
  assert (X2 : forall t, In (EStop t) ((l ++ [e]) ++ E) -> In (EStop t) l).
  { intros t. rewrite !in_app_iff. intros [[Y|[Y|[]]]|Y]; [exact Y|destruct He; subst; discriminate|]. unfold recs in HE. rewrite Forall_forall in HE. destruct (HE _ Y). }
  split.
  - apply R_app; [revert HE; apply Forall_impl; intros []; cbn; tauto|]. rewrite E1. eapply R_off; eassumption.
  - split.
    + intros t x H. apply X in H. destruct H as [H|H]; [apply T1 in H; lia|apply HB in H; lia].
    + intros t H. apply X2, T2 in H. destruct H as [x H]. exists x. apply X. auto.
    + intros t x y Hx Hy. apply X in Hx. apply X in Hy. destruct Hx as [Hx|Hx], Hy as [Hy|Hy]; [eapply T3; eassumption| | |eapply HK; eassumption].
      * apply T1 in Hx. apply HB in Hy. lia.
      * apply T1 in Hy. apply HB in Hx. lia.
  - split; intros t H; apply X; [apply HA in H|apply HV in H]; destruct H as [H|H]; auto.
Qed.
Lemma rec_grant s l k E e t x : LInv s l -> (e = EGranted k \/ e = EDenied k) -> recs E -> (forall t x, In (ERec t x) E -> c_tracks s <= t) ->
  recording (l ++ e :: E) t x <-> recording l t x \/ In (ERec t x) E.
Proof.
  intros L He HE HB. unfold recording. rewrite !in_app_iff. cbn [In].
  assert (N : ~ In (EStop t) E) by (intros Y; unfold recs in HE; rewrite Forall_forall in HE; destruct (HE _ Y)).
  assert (N1 : e <> ERec t x) by (destruct He; subst; discriminate). assert (N2 : e <> EStop t) by (destruct He; subst; discriminate).
  split.
  - intros [[Y|[Y|Y]] Z]; [left; tauto|contradiction|auto].
  - intros [[Y Z]|Y]; [tauto|]. split; [tauto|]. intros [Z|[Z|Z]]; try contradiction. eapply (fresh s l t x L); [eapply HB, Y|exact Z].
Qed.

Lemma step_inv s l o : Inv s l -> Inv (fst (c_step s o)) (l ++ snd (c_step s o)).
Proof.
  intros I. assert (G : change o \/ ~ change o) by (destruct o; cbn; tauto). destruct G as [G|G]; [apply step_inv_change; assumption|].
  pose proof (A_step s o (i_a _ _ I)) as HA. pose proof (O_answer s o G (i_a _ _ I)) as HO.
  assert (K : (exists k w e E, nth_error (c_reqs s) k = Some (w, true) /\ (e = EGranted k \/ e = EDenied k) /\ snd (c_step s o) = e :: E /\ recs E /\
      c_reqs (fst (c_step s o)) = req_off (c_reqs s) k /\ c_tracks s <= c_tracks (fst (c_step s o)) /\
      (forall t x, In (ERec t x) E -> c_tracks s <= t < c_tracks (fst (c_step s o))) /\ (forall t x y, In (ERec t x) E -> In (ERec t y) E -> x = y) /\
      (forall t, c_audio (fst (c_step s o)) = Some t -> c_audio s = Some t \/ In (ERec t KAudio) E) /\
      (forall t, c_video (fst (c_step s o)) = Some t -> c_video s = Some t \/ In (ERec t KVideo) E) /\
      (OInv s -> forall t, (c_audio s = Some t \/ In (ERec t KAudio) E <-> c_audio (fst (c_step s o)) = Some t) /\
                           (c_video s = Some t \/ In (ERec t KVideo) E <-> c_video (fst (c_step s o)) = Some t)) /\
      c_dev (fst (c_step s o)) = c_dev s /\ c_aen (fst (c_step s o)) = c_aen s /\ c_ven (fst (c_step s o)) = c_ven s /\ c_dead (fst (c_step s o)) = c_dead s) \/
    c_step s o = (s, [])).
  { clear HA HO. destruct o as [d'|b|b|k sound|k|]; try (exfalso; apply G; exact Logic.I); cbn [c_step];
      (destruct (nth_error (c_reqs s) k) as [[w []]|] eqn:E; [left|right; reflexivity|right; reflexivity]); exists k, w.
    - assert (IW : In w (opens (c_reqs s))).
      { destruct (opens_off _ _ _ E) as (x & y & E1 & _). rewrite E1, in_app_iff. cbn. tauto. }
      destruct w; [| |destruct sound]; cbn [fst snd c_reqs c_tracks c_audio c_video c_dev c_aen c_ven c_dead].
      + exists (EGranted k), [ERec (c_tracks s) KAudio].
        split; [exact E|]; split; [auto|]; split; [reflexivity|]; split; [repeat constructor|]; split; [reflexivity|]; split; [lia|].
        split; [intros t x [H|[]]; injection H as <- <-; lia|]. split; [intros t x y [H|[]] [H'|[]]; congruence|].
        split; [intros t H; right; left; congruence|]. split; [auto|]. split; [|auto].
        intros O. destruct (o_a _ O IW) as [-> _]. intros t; cbn. intuition (try discriminate; try congruence).
      + exists (EGranted k), [ERec (c_tracks s) KVideo].
        split; [exact E|]; split; [auto|]; split; [reflexivity|]; split; [repeat constructor|]; split; [reflexivity|]; split; [lia|].
        split; [intros t x [H|[]]; injection H as <- <-; lia|]. split; [intros t x y [H|[]] [H'|[]]; congruence|].
        split; [auto|]. split; [intros t H; right; left; congruence|]. split; [|auto].
        intros O. destruct (o_v _ O IW) as [-> _]. intros t; cbn. intuition (try discriminate; try congruence).
      + exists (EGranted k), [ERec (c_tracks s) KVideo; ERec (S (c_tracks s)) KAudio].
        split; [exact E|]; split; [auto|]; split; [reflexivity|]; split; [repeat constructor|]; split; [reflexivity|]; split; [lia|].
        split; [intros t x [H|[H|[]]]; injection H as <- <-; lia|].
        split; [intros t x y [H|[H|[]]] [H'|[H'|[]]]; inversion H; inversion H'; subst; try reflexivity; lia|].
        split; [intros t H; right; right; left; congruence|]. split; [intros t H; right; left; congruence|]. split; [|auto].
        intros O. destruct (o_s _ O IW) as (-> & -> & _). intros t; cbn. intuition (try discriminate; try congruence).
      + exists (EGranted k), [ERec (c_tracks s) KVideo].
        split; [exact E|]; split; [auto|]; split; [reflexivity|]; split; [repeat constructor|]; split; [reflexivity|]; split; [lia|].
        split; [intros t x [H|[]]; injection H as <- <-; lia|]. split; [intros t x y [H|[]] [H'|[]]; congruence|].
        split; [intros t H; discriminate|]. split; [intros t H; right; left; congruence|]. split; [|auto].
        intros O. destruct (o_s _ O IW) as (-> & -> & _). intros t; cbn. intuition (try discriminate; try congruence).
    - exists (EDenied k), []. cbn [fst snd c_reqs c_tracks c_audio c_video c_dev c_aen c_ven c_dead].
      split; [exact E|]; split; [auto|]; split; [reflexivity|]; split; [constructor|]; split; [reflexivity|]; split; [lia|].
      split; [intros ? ? []|]. split; [intros ? ? ? []|]. split; [auto|]. split; [auto|]. split; [|auto]. intros _ t. cbn. tauto. }
  destruct K as [(k & w & e & E & Hk & He & Hs & HE & E1 & E2 & HB & HK & HA' & HV' & HU & W1 & W2 & W3 & W4)|K];
    [|rewrite K; cbn; rewrite app_nil_r; exact I].
  rewrite Hs. assert (HB' : forall t x, In (ERec t x) E -> c_tracks s <= t) by (intros t x H; apply HB in H; lia).
  assert (Q : Forall quiet (e :: E)).
  { constructor; [destruct He; subst; exact Logic.I|]. revert HE. apply Forall_impl. intros []; cbn; tauto. }
  split.
  - eapply L_grant; try eassumption. apply (i_l _ _ I).
  - exact HA.
  - rewrite wants_app, (i_w _ _ I), quiet_wants, W1, W2, W3 by exact Q. reflexivity.
  - rewrite W4, (i_d _ _ I), in_app_iff. pose proof (quiet_closed _ Q). tauto.
  - intros U. destruct (i_u _ _ I) as [U1 [U2 U3]]; [eapply unhurried_pre, U|].
    split; [apply HO; exact U1|]. split; intros t; rewrite (rec_grant s l k) by (try assumption; apply (i_l _ _ I)); destruct (HU U1 t) as [Y1 Y2]; [rewrite U2; exact Y1|rewrite U3; exact Y2].
Qed.

Lemma run_inv ops : forall s l, Inv s l -> Inv (fst (c_run s ops)) (l ++ snd (c_run s ops)).
Proof.
  induction ops as [|o ops IH]; intros s l I; [cbn; rewrite app_nil_r; exact I|]. cbn [c_run].
  pose proof (step_inv s l o I) as J. destruct (c_step s o) as [s1 a]. cbn [fst snd] in J. specialize (IH _ _ J).
  destruct (c_run s1 ops) as [s2 b]. cbn [fst snd] in *. rewrite app_assoc. exact IH.
Qed.
Lemma init_inv : Inv c_init [].
Proof.
  split.
  - split; split; cbn; try (intros; contradiction); try discriminate.
    + intros k w. split; [intros []|]. intros [b H]. destruct k; discriminate.
    + intros k w b H. destruct k; discriminate.
    + intros k [[]|[]].
  - repeat split.
  - reflexivity.
  - cbn. split; [discriminate|intros []].
  - intros _. split.
    + split; cbn; try contradiction; constructor.
    + unfold recording. split; cbn; intros t; split; try discriminate; intros [[] _].
Qed.
Lemma reach ops : Inv (fst (c_run c_init ops)) (snd (c_run c_init ops)).
Proof. apply (run_inv ops c_init [] init_inv). Qed.

Lemma run_app s a b : c_run s (a ++ b) = let (s1, x) := c_run s a in let (s2, y) := c_run s1 b in (s2, x ++ y).
Proof.
  revert s. induction a as [|o a IH]; intros s; cbn [app c_run].
  - destruct (c_run s b). reflexivity.
  - destruct (c_step s o) as [s1 x]. rewrite IH. destruct (c_run s1 a) as [s2 y]. destruct (c_run s2 b) as [s3 z]. rewrite app_assoc. reflexivity.
Qed.

(** *** The claims *)
Lemma only_wanted ops t x : let l := snd (c_run c_init ops) in unhurried l -> recording l t x -> ~ closed l /\ may_record (wants l) x = true.
Proof.
  intros l U R. pose proof (reach ops) as I. fold l in I. set (s := fst (c_run c_init ops)) in *.
  destruct (i_u _ _ I U) as [O [SA SV]]. pose proof (i_a _ _ I) as (A1 & A2 & A3). unfold closed. rewrite <- (i_d _ _ I), (i_w _ _ I).
  destruct x.
  - apply SA in R. assert (N : c_audio s <> None) by (rewrite R; discriminate). pose proof (o_audio _ O N) as Q. rewrite A1, A3 in Q.
    destruct (c_dead s), (c_dev s) as [[]|], (c_aen s), (c_ven s); cbn in *; try discriminate; split; auto; discriminate.
  - apply SV in R. assert (N : c_video s <> None) by (rewrite R; discriminate). pose proof (o_video _ O N) as Q. rewrite A2, A3 in Q.
    destruct (c_dead s), (c_dev s) as [[]|], (c_aen s), (c_ven s); cbn in *; try discriminate; split; auto; discriminate.
Qed.
Lemma at_most_one ops t u x : let l := snd (c_run c_init ops) in unhurried l -> recording l t x -> recording l u x -> t = u.
Proof.
  intros l U R1 R2. pose proof (reach ops) as I. fold l in I. destruct (i_u _ _ I U) as [_ [SA SV]].
  destruct x; [apply SA in R1; apply SA in R2|apply SV in R1; apply SV in R2]; congruence.
Qed.
Lemma asks_then ops o w : let l := snd (c_run c_init ops) in let m := snd (c_run c_init (ops ++ [o])) in
  calls_for (wants l) w = false -> calls_for (wants m) w = true -> ~ closed m -> exists k, In (EAsk k w) m /\ ~ In (EAsk k w) l /\ pending m k.
Proof.
  cbn zeta. intros H1 H2 H3. pose proof (reach ops) as I. pose proof (reach (ops ++ [o])) as J. rewrite run_app in *.
  destruct (c_run c_init ops) as [s l]. cbn [c_run fst snd] in *. destruct (c_step s o) as [s1 y] eqn:E. cbn [fst snd app] in *. rewrite app_nil_r in *.
  rewrite (i_w _ _ I) in H1. rewrite (i_w _ _ J) in H2. unfold closed in H3. rewrite <- (i_d _ _ J) in H3.
  assert (D1 : c_dead s1 = false) by (destruct (c_dead s1); [exfalso; apply H3; reflexivity|reflexivity]).
  assert (X : exists k, nth_error (c_reqs s1) k = Some (w, true) /\ length (c_reqs s) <= k).
  { destruct (i_a _ _ I) as (A1 & A2 & A3).
    assert (G : change o \/ ~ change o) by (destruct o; cbn; tauto). destruct G as [G|G].
    - rewrite step_change in E by exact G. destruct (rerun s o) as [[[s' e] [[ra rv] rs]]|] eqn:ER; [|injection E as <- <-; congruence].
      assert (E' : fst (effs ra rv rs s') = s1) by (unfold emit in E; injection E as E _; exact E). rewrite effs_state in E'.
      destruct (rerun_facts _ _ _ _ _ ER) as [(M1 & _) _]. rewrite M1 in E'.
      assert (Q : (w = CamAudio /\ ra && q_a s' = true) \/ (w = CamVideo /\ rv && q_v s' = true) \/ (w = Both /\ rs && q_s s' = true)).
      { rewrite <- E' in H2, D1. cbn [c_dev c_aen c_ven c_dead] in H2, D1. clear E' E M1 A1 A2 A3 I J H3.
        destruct s as [d a v au vi aa av as_ r t dead]. unfold q_a, q_v, q_s, is_dev.
        destruct o as [d'|b|b|k sound|k|]; try contradiction; cbn [rerun c_dead c_dev c_aen c_ven with_want] in ER.
        - destruct (dev_eqb d' d); [discriminate|]. injection ER as <- <- <- <- <-. cbn in *. subst dead. cbn.
          destruct w, d' as [[]|], a, v; cbn in *; try discriminate; auto.
        - destruct (Bool.eqb b a) eqn:EB; [discriminate|]. injection ER as <- <- <- <- <-. cbn in *. subst dead. unfold is_dev. cbn.
          destruct w, d as [[]|], a, v, b; cbn in *; try discriminate; auto.
        - destruct (Bool.eqb b v) eqn:EB; [discriminate|]. injection ER as <- <- <- <- <-. cbn in *. subst dead. unfold is_dev. cbn.
          destruct w, d as [[]|], a, v, b; cbn in *; try discriminate; auto.
        - destruct dead; [discriminate|]. injection ER as <- <- <- <- <-. cbn in D1. discriminate. }
      rewrite <- E'. cbn [c_reqs].
      assert (Y : exists i, nth_error (opt (ra && q_a s') CamAudio ++ opt (rv && q_v s') CamVideo ++ opt (rs && q_s s') Both) i = Some (w, true)).
      { apply In_nth_error. rewrite !in_app_iff. destruct Q as [[-> ->]|[[-> ->]|[-> ->]]]; cbn; tauto. }
      destruct Y as [i Y]. exists (length (c_reqs s) + i). split; [|lia]. rewrite nth_error_app2 by lia.
      replace (length (c_reqs s) + i - length (c_reqs s)) with i by lia. exact Y.
    - exfalso. assert (c_dev s1 = c_dev s /\ c_aen s1 = c_aen s /\ c_ven s1 = c_ven s) as (Z1 & Z2 & Z3).
      { destruct o as [d'|b|b|k sound|k|]; try (exfalso; apply G; exact Logic.I); cbn [c_step] in E;
          (destruct (nth_error (c_reqs s) k) as [[w' []]|]; [try destruct w'; try destruct sound|..]); injection E as <- <-; auto. }
      rewrite Z1, Z2, Z3 in H2. congruence. }
  destruct X as (k & Hk & Hl). exists k. split; [apply (r_ask _ _ (l_r _ _ (i_l _ _ J))); eauto|]. split.
  - intros Hin. apply (r_ask _ _ (l_r _ _ (i_l _ _ I))) in Hin. destruct Hin as [b Hb].
    assert (k < length (c_reqs s)) by (apply nth_error_Some; rewrite Hb; discriminate). lia.
  - apply (R_pending _ _ _ (l_r _ _ (i_l _ _ J))). eauto.
Qed.

(** After [close] nothing is ever stopped. *)
Lemma dead_step s o : c_dead s = true -> c_dead (fst (c_step s o)) = true /\ forall t, ~ In (EStop t) (snd (c_step s o)).
Proof.
  intros H. assert (G : change o \/ ~ change o) by (destruct o; cbn; tauto). destruct G as [G|G].
  - rewrite step_change by exact G. destruct (rerun s o) as [[[s' e] [[ra rv] rs]]|] eqn:E; [|cbn; auto].
    destruct o; try contradiction; cbn [rerun] in E; rewrite H in E; try discriminate;
      (match type of E with (if ?b then _ else _) = _ => destruct b end; [discriminate|injection E as <- <- <- <- <-]);
      rewrite effs_none; cbn; (split; [exact H|intros t [Y|[]]; discriminate]).
  - destruct o as [d'|b|b|k sound|k|]; try (exfalso; apply G; exact Logic.I); cbn [c_step];
      (destruct (nth_error (c_reqs s) k) as [[w' []]|]; [try destruct w'; try destruct sound|..]); cbn; (split; [exact H|]); intros t Y; intuition discriminate.
Qed.
Lemma dead_run ops : forall s, c_dead s = true -> forall t, ~ In (EStop t) (snd (c_run s ops)).
Proof.
  induction ops as [|o ops IH]; intros s H t; [intros []|]. cbn [c_run]. destruct (dead_step s o H) as [D N]. destruct (c_step s o) as [s1 a].
  specialize (IH s1 D t). destruct (c_run s1 ops) as [s2 b]. cbn in *. rewrite in_app_iff. specialize (N t). tauto.
Qed.
Lemma for_ever ops t x : let l := snd (c_run c_init ops) in closed l -> recording l t x -> forall more, recording (snd (c_run c_init (ops ++ more))) t x.
Proof.
  cbn zeta. intros C [R1 R2] more. pose proof (reach ops) as I. rewrite run_app. destruct (c_run c_init ops) as [s l]. cbn [fst snd] in *.
  apply (i_d _ _ I) in C. pose proof (dead_run more s C t) as N. destruct (c_run s more) as [s2 y]. cbn in *.
  split; rewrite in_app_iff; tauto.
Qed.

Lemma asks_only ops o k w : let l := snd (c_run c_init ops) in let m := snd (c_run c_init (ops ++ [o])) in
  In (EAsk k w) m -> ~ In (EAsk k w) l -> calls_for (wants m) w = true /\ ~ closed m.
Proof.
  cbn zeta. intros H1 H2. pose proof (reach ops) as I. pose proof (reach (ops ++ [o])) as J. rewrite run_app in *.
  destruct (c_run c_init ops) as [s l]. cbn [c_run fst snd] in *. destruct (c_step s o) as [s1 y] eqn:E. cbn [fst snd app] in *. rewrite app_nil_r in *.
  rewrite (i_w _ _ J). unfold closed. rewrite <- (i_d _ _ J).
  rewrite (r_ask _ _ (l_r _ _ (i_l _ _ J))) in H1. rewrite (r_ask _ _ (l_r _ _ (i_l _ _ I))) in H2. destruct H1 as [b Hb].
  assert (G : change o \/ ~ change o) by (destruct o; cbn; tauto). destruct G as [G|G].
  - rewrite step_change in E by exact G. destruct (rerun s o) as [[[s' e] [[ra rv] rs]]|] eqn:ER; [|injection E as <- <-; exfalso; apply H2; eauto].
    assert (E' : fst (effs ra rv rs s') = s1) by (unfold emit in E; injection E as E _; exact E). rewrite effs_state in E'.
    destruct (rerun_facts _ _ _ _ _ ER) as [(M1 & _) _]. rewrite M1 in E'.
    rewrite <- E' in Hb |- *. cbn [c_reqs c_dev c_aen c_ven c_dead] in *.
    assert (Hl : length (c_reqs s) <= k).
    { destruct (le_lt_dec (length (c_reqs s)) k) as [|Hl]; [assumption|]. exfalso. apply H2. exists b. rewrite nth_error_app1 in Hb by exact Hl. exact Hb. }
    rewrite nth_error_app2 in Hb by exact Hl. apply nth_error_In in Hb. rewrite !in_app_iff in Hb. unfold opt in Hb.
    destruct Hb as [Hb|[Hb|Hb]];
      (match type of Hb with In _ (if ?q then _ else _) => destruct q eqn:Q end; [|destruct Hb]); destruct Hb as [Hb|[]]; injection Hb as <- <-;
      apply andb_true_iff in Q; destruct Q as [_ Q]; unfold q_a, q_v, q_s, is_dev in Q;
      destruct (c_dev s') as [[]|], (c_aen s'), (c_ven s'), (c_dead s'); cbn in *; try discriminate; split; auto; discriminate.
  - exfalso. apply H2. destruct o as [d'|x|x|j sound|j|]; try (exfalso; apply G; exact Logic.I); cbn [c_step] in E;
      (destruct (nth_error (c_reqs s) j) as [[w' []]|] eqn:Ej; [|injection E as <- <-; eauto|injection E as <- <-; eauto]);
      assert (R : c_reqs s1 = req_off (c_reqs s) j) by (try destruct w'; try destruct sound; injection E as <- <-; reflexivity);
      rewrite R, off_nth in Hb; (destruct (Nat.eqb k j); [|eauto]); (destruct (nth_error (c_reqs s) k) as [[w2 b2]|]; [|discriminate]); cbn in Hb; injection Hb as <- _; eauto.
Qed.
