(** The web player. *)
From Coq Require Import NArith ZArith Arith List Lia Bool.
From Coq Require Import Init.Byte Strings.Byte.
From Verif.Model Require Import Base Map Player.
From Verif.Spec Require Import PlayerSpec.
From Verif.Proofs Require Import MapP.
Import ListNotations.

Section P.
Context {C : Type}.
Variable builds : C -> bool.
Notation wevents := (list (wop C * list (effect C))).
Notation wrun := (wrun builds).
Notation wstep := (wstep builds).

Lemma wrun_app s a b : wrun s (a ++ b) =
  (fst (wrun (fst (wrun s a)) b), snd (wrun s a) ++ snd (wrun (fst (wrun s a)) b)).
Proof.
  revert s. induction a as [|o a IH]; intro s; cbn [app Player.wrun fst snd].
  - destruct (wrun s b); reflexivity.
  - destruct (wstep s o) as [s1 x]. rewrite IH. destruct (wrun s1 a) as [s2 tr]. reflexivity.
Qed.
Lemma wrun_snoc s a o : wrun s (a ++ [o]) =
  (fst (wstep (fst (wrun s a)) o), snd (wrun s a) ++ [(o, snd (wstep (fst (wrun s a)) o))]).
Proof. rewrite wrun_app. cbn [Player.wrun]. destruct (wstep (fst (wrun s a)) o). reflexivity. Qed.

(** ** The spec functions at the end of a trace *)
Lemma effects_snoc (tr : wevents) e : effects (tr ++ [e]) = effects tr ++ snd e.
Proof. unfold effects. rewrite flat_map_app. cbn. rewrite app_nil_r. reflexivity. Qed.
Lemma subscribed_snoc k (tr : wevents) e : subscribed k (tr ++ [e]) = fold_left (sub_upd k) (snd e) (subscribed k tr).
Proof. unfold subscribed. rewrite effects_snoc, fold_left_app. reflexivity. Qed.
Definition join_upd (j : option nat) (e : effect C) : option nat := match e with EConsume b _ => Some b | _ => j end.
Lemma joined_snoc (tr : wevents) e : joined (tr ++ [e]) = fold_left join_upd (snd e) (joined tr).
Proof. unfold joined. rewrite effects_snoc, fold_left_app. reflexivity. Qed.
Lemma received_snoc_gen (tr : wevents) e : forall j l,
  catalogs_from j l (tr ++ [e]) = cat_upd (fold_left join_upd (effects tr) j) (catalogs_from j l tr) e.
Proof.
  induction tr as [|x tr IH]; intros j l; [reflexivity|]. cbn [app catalogs_from]. rewrite IH. unfold effects. cbn [flat_map].
  rewrite fold_left_app. reflexivity.
Qed.
Lemma received_snoc (tr : wevents) e : received (tr ++ [e]) = cat_upd (joined tr) (received tr) e.
Proof. apply received_snoc_gen. Qed.

(** ** Choosing a track *)
Definition choice (k : kind) (en : bool) (ex : option (sub C)) (nw : option (nat * catalog C)) : option (sub C) :=
  if en then
    match nw with
    | Some (b, c) =>
      match first k c with
      | Some r =>
        let fresh := if builds (rn_config r) then Some (Sub b r) else None in
        match ex with Some e => if same_track (sb_info e) r then Some e else fresh | None => fresh end
      | None => None
      end
    | None => None
    end
  else None.

Definition pair_up (b : option nat) (c : option (catalog C)) : option (nat * catalog C) :=
  match b, c with Some b, Some c => Some (b, c) | _, _ => None end.

Lemma same_track_spec (a b : rendition C) : same_track a b = true <-> tracks_equal a b.
Proof.
  unfold same_track, tracks_equal. rewrite andb_true_iff, N.eqb_eq. destruct (str_eqb_spec (rn_name a) (rn_name b)); intuition congruence.
Qed.

Lemma fold_dropped k (t t' : option (sub C)) : fold_left (sub_upd k) (dropped k t) t' = match t with Some _ => None | None => t' end.
Proof. destruct t; [|reflexivity]. destruct k; reflexivity. Qed.
Lemma fold_dropped_other k k' (t t' : option (sub C)) : k <> k' -> fold_left (sub_upd k) (dropped k' t) t' = t'.
Proof. intro N. destruct t; [|reflexivity]. destruct k, k'; try reflexivity; congruence. Qed.
Lemma join_dropped k (t : option (sub C)) j : fold_left join_upd (dropped k t) j = j.
Proof. destruct t; reflexivity. Qed.

Lemma video_choice v : let r := video_reinit builds v in
  v_track (fst r) = choice Video (v_visible v && v_canvas v) (v_track v) (pair_up (v_broadcast v) (v_catalog v)) /\
  v_broadcast (fst r) = v_broadcast v /\ v_catalog (fst r) = v_catalog v /\ v_canvas (fst r) = v_canvas v /\
  v_visible (fst r) = v_visible v /\
  fold_left (sub_upd Video) (snd r) (v_track v) = v_track (fst r) /\
  (forall t, fold_left (sub_upd Audio) (snd r) t = t) /\ (forall j, fold_left join_upd (snd r) j = j) /\
  ~ In EPanic (snd r) /\ happened (snd r) = true.
Proof.
  destruct v as [t b c cv vi]. unfold video_reinit, choice, pair_up, first. cbn [v_track v_broadcast v_catalog v_canvas v_visible].
  destruct t as [t|], b as [b|], c as [[cv' ca]|], cv, vi; cbn [negb orb andb ct_video hd_error];
    try destruct cv' as [|r ?]; cbn [hd_error]; try destruct (same_track (sb_info t) r); try destruct (builds (rn_config r));
    cbn; repeat split; auto; intuition discriminate.
Qed.
Lemma audio_choice v : let r := audio_reinit builds v in
  a_track (fst r) = choice Audio (negb (a_muted v) && a_worklet v) (a_track v) (pair_up (a_broadcast v) (a_catalog v)) /\
  a_broadcast (fst r) = a_broadcast v /\ a_catalog (fst r) = a_catalog v /\ a_worklet (fst r) = a_worklet v /\
  a_muted (fst r) = a_muted v /\
  fold_left (sub_upd Audio) (snd r) (a_track v) = a_track (fst r) /\
  (forall t, fold_left (sub_upd Video) (snd r) t = t) /\ (forall j, fold_left join_upd (snd r) j = j) /\
  ~ In EPanic (snd r) /\ happened (snd r) = true.
Proof.
  destruct v as [t b c cv vi]. unfold audio_reinit, choice, pair_up, first. cbn [a_track a_broadcast a_catalog a_worklet a_muted].
  destruct t as [t|], b as [b|], c as [[cv' ca]|], cv, vi; cbn [negb orb andb ct_audio hd_error];
    try destruct ca as [|r ?]; cbn [hd_error]; try destruct (same_track (sb_info t) r); try destruct (builds (rn_config r));
    cbn; repeat split; auto; intuition discriminate.
Qed.
Lemma choice_on k en ex nw t : choice k en ex nw = Some t ->
  en = true /\ exists b c r, nw = Some (b, c) /\ first k c = Some r /\ tracks_equal (sb_info t) r /\ (ex = Some t \/ t = Sub b r).
Proof.
  unfold choice. destruct en; [|discriminate]. destruct nw as [[b c]|]; [|discriminate].
  destruct (first k c) as [r|] eqn:F; [|discriminate]. intro H. split; [reflexivity|]. exists b, c, r. split; [reflexivity|]. split; [exact F|].
  cbv zeta in H. destruct ex as [e|].
  - destruct (same_track (sb_info e) r) eqn:S.
    + injection H as <-. split; [apply same_track_spec; exact S|auto].
    + destruct (builds (rn_config r)); [|discriminate]. injection H as <-. cbn. split; [split; reflexivity|auto].
  - destruct (builds (rn_config r)); [|discriminate]. injection H as <-. cbn. split; [split; reflexivity|auto].
Qed.
Lemma choice_off k en ex nw : choice k en ex nw = None ->
  en = false \/ nw = None \/ exists b c, nw = Some (b, c) /\
    (first k c = None \/ exists r, first k c = Some r /\ builds (rn_config r) = false).
Proof.
  unfold choice. destruct en; [|auto]. destruct nw as [[b c]|]; [|auto]. intro H. right. right. exists b, c. split; [reflexivity|].
  destruct (first k c) as [r|]; [|auto]. right. exists r. split; [reflexivity|]. cbv zeta in H.
  destruct (builds (rn_config r)); [|reflexivity]. destruct ex as [e|]; [destruct (same_track (sb_info e) r)|]; discriminate.
Qed.

(** ** What holds of each kind *)
Record kinv (k : kind) (tr : wevents) : Prop := {
  ki_on : forall t, subscribed k tr = Some t -> enabled k tr = true /\
    exists b c r, newest tr = Some (b, c) /\ first k c = Some r /\ tracks_equal (sb_info t) r;
  ki_src : forall t, subscribed k tr = Some t -> exists c, In (sb_broadcast t, c) (received tr) /\ first k c = Some (sb_info t);
  ki_off : decodable builds k tr -> subscribed k tr = None ->
    finished k tr = true \/ enabled k tr = false \/ newest tr = None \/
    exists b c, newest tr = Some (b, c) /\ first k c = None;
  ki_fin : finished k tr = true -> subscribed k tr = None }.

Lemma newest_received (tr : wevents) x : newest tr = Some x -> In x (received tr).
Proof. unfold newest. destruct (offline tr); [discriminate|]. destruct (received tr); [discriminate|]. cbn. intro H. injection H as <-. auto. Qed.

Lemma kinv_same k tr tr' : kinv k tr -> enabled k tr' = enabled k tr -> subscribed k tr' = subscribed k tr ->
  newest tr' = newest tr -> received tr' = received tr -> finished k tr' = finished k tr -> kinv k tr'.
Proof.
  intros [A B D E] H1 H2 H3 H4 H5. unfold decodable in *. split; unfold decodable; rewrite ?H1, ?H2, ?H3, ?H4, ?H5; auto.
Qed.
Lemma kinv_choice k tr tr' : kinv k tr -> subscribed k tr' = choice k (enabled k tr') (subscribed k tr) (newest tr') ->
  incl (received tr) (received tr') -> finished k tr' = false -> kinv k tr'.
Proof.
  intros [A B D E] H1 H2 H3. split; rewrite ?H1, ?H3; try discriminate.
  - intros t T. apply choice_on in T. destruct T as (X & b & c & r & Y & Z & U & _). split; [exact X|]. exists b, c, r. auto.
  - intros t T. apply choice_on in T. destruct T as (X & b & c & r & Y & Z & U & [V|V]).
    + destruct (B t V) as (c' & I & F). exists c'. auto.
    + subst t. exists c. cbn. split; [apply newest_received; exact Y|exact Z].
  - intros Dec T. apply choice_off in T. right. destruct T as [T|[T|(b & c & T & U)]]; [auto|auto|].
    right. right. exists b, c. split; [exact T|]. destruct U as [U|(r & U & V)]; [exact U|].
    rewrite (Dec b c r) in V; [discriminate|apply newest_received; exact T|exact U].
Qed.
Lemma kinv_end k (tr : wevents) : subscribed k tr = None -> finished k tr = true -> kinv k tr.
Proof. intros H1 H2. split; rewrite ?H1, ?H2; auto; discriminate. Qed.

Record sinv (s : watch C) (tr : wevents) : Prop := {
  si_dead : w_dead s = false;
  si_muted : a_muted (w_audio s) = muted tr; si_worklet : a_worklet (w_audio s) = worklet tr;
  si_visible : v_visible (w_video s) = visible tr; si_canvas : v_canvas (w_video s) = canvas tr;
  si_sub : forall k, track_of s k = subscribed k tr;
  si_a : pair_up (a_broadcast (w_audio s)) (a_catalog (w_audio s)) = newest tr;
  si_v : pair_up (v_broadcast (w_video s)) (v_catalog (w_video s)) = newest tr;
  si_b : forall b, w_broadcast s = Some b -> joined tr = Some b;
  si_ask : w_connect s = asked tr }.

Definition inv (s : watch C) (tr : wevents) : Prop := sinv s tr /\ forall k, kinv k tr.

Lemma inv_new : inv watch_new [].
Proof.
  split.
  - split; cbn; try reflexivity; try discriminate. intros []; reflexivity.
  - intro k. split; cbn; try discriminate. intros _ _. right. right. left. reflexivity.
Qed.

Lemma newest_snoc (tr : wevents) e : newest (tr ++ [e]) =
  if happened (snd e) then
    match fst e with
    | WCatalog (Newer c) => match joined tr with Some b => Some (b, c) | None => hd_error (received tr) end
    | WCatalog Ended => None
    | _ => newest tr
    end
  else newest tr.
Proof.
  unfold newest. rewrite received_snoc. unfold offline. rewrite fold_left_app. destruct e as [o x]. cbn [fold_left fst snd].
  unfold cat_upd. destruct (happened x), o as [?|?|?|?|?|?|[c| |]|?|?]; try reflexivity; destruct (joined tr); reflexivity.
Qed.
Lemma received_same (tr : wevents) o x : match o with WCatalog (Newer _) => False | _ => True end ->
  received (tr ++ [(o, x)]) = received tr.
Proof. intro H. rewrite received_snoc. unfold cat_upd. destruct o as [?|?|?|?|?|?|[c| |]|?|?]; try contradiction; destruct (joined tr); reflexivity. Qed.
Lemma received_incl (tr : wevents) e : incl (received tr) (received (tr ++ [e])).
Proof.
  rewrite received_snoc. unfold cat_upd. destruct e as [o x]. destruct o as [?|?|?|?|?|?|[c| |]|?|?]; destruct (joined tr); try apply incl_refl.
  destruct (happened x); [apply incl_tl|]; apply incl_refl.
Qed.

Ltac flags := unfold muted, worklet, visible, canvas; rewrite !fold_left_app; cbn [fold_left fst].

(** The event was impossible. *)
Lemma inv_bad s tr o : inv s tr -> snd (wstep s o) = [EBad] ->
  match o with WConnect _ | WMuted _ | WWorklet _ | WVisible _ | WCanvas _ => False | _ => True end -> inv s (tr ++ [(o, [EBad])]).
Proof.
  intros [[S1 S2 S3 S4 S5 S6 S7 S8 S9 S10] K] _ H.
  assert (N : newest (tr ++ [(o, [EBad])]) = newest tr) by (rewrite newest_snoc; reflexivity).
  assert (R : received (tr ++ [(o, [EBad])]) = received tr).
  { rewrite received_snoc. unfold cat_upd. cbn [happened]. destruct o as [?|?|?|?|?|?|[c| |]|?|?]; destruct (joined tr); reflexivity. }
  assert (F : muted (tr ++ [(o, [EBad])]) = muted tr /\ worklet (tr ++ [(o, [EBad])]) = worklet tr /\
              visible (tr ++ [(o, [EBad])]) = visible tr /\ canvas (tr ++ [(o, [EBad])]) = canvas tr).
  { unfold muted, worklet, visible, canvas. rewrite !fold_left_app. cbn [fold_left fst]. destruct o; try contradiction; auto. }
  destruct F as (F1 & F2 & F3 & F4).
  split.
  - split; rewrite ?F1, ?F2, ?F3, ?F4, ?N; auto.
    + intro k. rewrite subscribed_snoc. cbn. apply S6.
    + intros b B. rewrite joined_snoc. cbn. auto.
    + unfold asked. rewrite fold_left_app. cbn. destruct o; try contradiction; exact S10.
  - intro k. apply (kinv_same k tr); auto.
    + unfold enabled. rewrite F1, F2, F3, F4. reflexivity.
    + rewrite subscribed_snoc. reflexivity.
    + unfold finished. rewrite fold_left_app. reflexivity.
Qed.
Lemma kinv_quiet k tr o x : kinv k tr -> fold_left (sub_upd k) x (subscribed k tr) = subscribed k tr ->
  match o, k with
  | WConnect _, _ | WSession _, _ | WFrame _, _ | WCatalog Broken, _ => True
  | WMuted _, Video | WWorklet _, Video | WVisible _, Audio | WCanvas _, Audio => True
  | WTrackEnd Audio, Video | WTrackEnd Video, Audio => True
  | _, _ => False end -> kinv k (tr ++ [(o, x)]).
Proof.
  intros K S H. apply (kinv_same k tr); auto.
  - unfold enabled, muted, worklet, visible, canvas. rewrite !fold_left_app. cbn [fold_left fst].
    destruct o as [?|?|?|?|?|?|[]|[]|?], k; try contradiction; reflexivity.
  - rewrite subscribed_snoc. exact S.
  - rewrite newest_snoc. cbn [fst snd]. destruct (happened x); [|reflexivity]. destruct o as [?|?|?|?|?|?|[]|[]|?], k; try contradiction; reflexivity.
  - apply received_same. destruct o as [?|?|?|?|?|?|[]|[]|?], k; try contradiction; exact I.
  - unfold finished. rewrite fold_left_app. cbn [fold_left fst snd]. destruct (happened x); [|reflexivity].
    destruct o as [?|?|?|?|?|?|[]|[]|?], k; try contradiction; reflexivity.
Qed.

Lemma finished_reset k (tr : wevents) o x : happened x = true ->
  match o, k with
  | WCatalog (Newer _), _ | WCatalog Ended, _ => True
  | WMuted _, Audio | WWorklet _, Audio | WVisible _, Video | WCanvas _, Video => True
  | _, _ => False end -> finished k (tr ++ [(o, x)]) = false.
Proof.
  intros X H. unfold finished. rewrite fold_left_app. cbn [fold_left fst snd]. rewrite X.
  destruct o as [?|?|?|?|?|?|[]|[]|?], k; try contradiction; reflexivity.
Qed.

Lemma inv_step s tr o s' x : inv s tr -> wstep s o = (s', x) -> ~ In EPanic x -> inv s' (tr ++ [(o, x)]).
Proof.
  intros [S K] E P. pose proof S as [S1 S2 S3 S4 S5 S6 S7 S8 S9 S10].
  unfold Player.wstep in E. rewrite S1 in E.
  destruct o as [p|b|b|b|b|ok|r|k|k].
  - injection E as <- <-. split.
    + split; auto; cbn [w_dead w_audio w_video w_broadcast w_connect]; try (flags; assumption).
      * intro k. rewrite subscribed_snoc. cbn. apply S6.
      * rewrite newest_snoc. exact S7.
      * rewrite newest_snoc. exact S8.
      * intros b B. rewrite joined_snoc. cbn. auto.
      * unfold asked. rewrite fold_left_app. reflexivity.
    + intro k. apply kinv_quiet; auto.
  - cbv zeta in E. set (v := V _ _ _ _ _) in E. pose proof (video_choice v) as H. cbv zeta in H.
    destruct (video_reinit builds v) as [v' x'] eqn:R. unfold with_video in E. cbn [fst snd] in *. injection E as <- <-.
    destruct H as (H1 & H2 & H3 & H4 & H5 & H6 & H7 & H8 & H9 & H10).
    assert (Nw : newest (tr ++ [(WCanvas b, x')]) = newest tr) by (rewrite newest_snoc; cbn [fst snd]; rewrite H10; reflexivity).
    assert (TV : v_track v = subscribed Video tr) by exact (S6 Video).
    split.
    + split; auto; cbn [w_dead w_audio w_video w_broadcast w_connect]; try (flags; assumption); rewrite ?Nw; auto.
      * flags. rewrite H5. exact S4.
      * intro k. rewrite subscribed_snoc. cbn [snd]. destruct k; cbn [track_of w_audio w_video].
        -- rewrite H7. exact (S6 Audio).
        -- rewrite <- TV, H6. reflexivity.
      * rewrite H2, H3. exact S8.
      * intros b0 B. rewrite joined_snoc. cbn [snd]. rewrite H8. auto.
      * unfold asked. rewrite fold_left_app. exact S10.
    + intros [].
      * apply kinv_quiet; auto.
      * apply (kinv_choice Video tr); [apply K| |apply received_incl|apply finished_reset; auto].
        rewrite subscribed_snoc, Nw. cbn [snd]. rewrite <- TV, H6, H1, <- S8. f_equal.
        unfold enabled. flags. fold (visible tr). rewrite <- S4. reflexivity.
  - cbv zeta in E. set (v := V _ _ _ _ _) in E. pose proof (video_choice v) as H. cbv zeta in H.
    destruct (video_reinit builds v) as [v' x'] eqn:R. unfold with_video in E. cbn [fst snd] in *. injection E as <- <-.
    destruct H as (H1 & H2 & H3 & H4 & H5 & H6 & H7 & H8 & H9 & H10).
    assert (Nw : newest (tr ++ [(WVisible b, x')]) = newest tr) by (rewrite newest_snoc; cbn [fst snd]; rewrite H10; reflexivity).
    assert (TV : v_track v = subscribed Video tr) by exact (S6 Video).
    split.
    + split; auto; cbn [w_dead w_audio w_video w_broadcast w_connect]; try (flags; assumption); rewrite ?Nw; auto.
      * flags. rewrite H4. exact S5.
      * intro k. rewrite subscribed_snoc. cbn [snd]. destruct k; cbn [track_of w_audio w_video].
        -- rewrite H7. exact (S6 Audio).
        -- rewrite <- TV, H6. reflexivity.
      * rewrite H2, H3. exact S8.
      * intros b0 B. rewrite joined_snoc. cbn [snd]. rewrite H8. auto.
      * unfold asked. rewrite fold_left_app. exact S10.
    + intros [].
      * apply kinv_quiet; auto.
      * apply (kinv_choice Video tr); [apply K| |apply received_incl|apply finished_reset; auto].
        rewrite subscribed_snoc, Nw. cbn [snd]. rewrite <- TV, H6, H1, <- S8. f_equal.
        unfold enabled. flags. fold (canvas tr). rewrite <- S5. reflexivity.
  - cbv zeta in E. set (v := A _ _ _ _ _) in E. pose proof (audio_choice v) as H. cbv zeta in H.
    destruct (audio_reinit builds v) as [v' x'] eqn:R. unfold with_audio in E. cbn [fst snd] in *. injection E as <- <-.
    destruct H as (H1 & H2 & H3 & H4 & H5 & H6 & H7 & H8 & H9 & H10).
    assert (Nw : newest (tr ++ [(WWorklet b, x')]) = newest tr) by (rewrite newest_snoc; cbn [fst snd]; rewrite H10; reflexivity).
    assert (TV : a_track v = subscribed Audio tr) by exact (S6 Audio).
    split.
    + split; auto; cbn [w_dead w_audio w_video w_broadcast w_connect]; try (flags; assumption); rewrite ?Nw; auto.
      * flags. rewrite H5. exact S2.
      * intro k. rewrite subscribed_snoc. cbn [snd]. destruct k; cbn [track_of w_audio w_video].
        -- rewrite <- TV, H6. reflexivity.
        -- rewrite H7. exact (S6 Video).
      * rewrite H2, H3. exact S7.
      * intros b0 B. rewrite joined_snoc. cbn [snd]. rewrite H8. auto.
      * unfold asked. rewrite fold_left_app. exact S10.
    + intros [].
      * apply (kinv_choice Audio tr); [apply K| |apply received_incl|apply finished_reset; auto].
        rewrite subscribed_snoc, Nw. cbn [snd]. rewrite <- TV, H6, H1, <- S7. f_equal.
        unfold enabled. flags. fold (muted tr). rewrite <- S2. reflexivity.
      * apply kinv_quiet; auto.
  - cbv zeta in E. set (v := A _ _ _ _ _) in E. pose proof (audio_choice v) as H. cbv zeta in H.
    destruct (audio_reinit builds v) as [v' x'] eqn:R. unfold with_audio in E. cbn [fst snd] in *. injection E as <- <-.
    destruct H as (H1 & H2 & H3 & H4 & H5 & H6 & H7 & H8 & H9 & H10).
    assert (Nw : newest (tr ++ [(WMuted b, x')]) = newest tr) by (rewrite newest_snoc; cbn [fst snd]; rewrite H10; reflexivity).
    assert (TV : a_track v = subscribed Audio tr) by exact (S6 Audio).
    split.
    + split; auto; cbn [w_dead w_audio w_video w_broadcast w_connect]; try (flags; assumption); rewrite ?Nw; auto.
      * flags. rewrite H4. exact S3.
      * intro k. rewrite subscribed_snoc. cbn [snd]. destruct k; cbn [track_of w_audio w_video].
        -- rewrite <- TV, H6. reflexivity.
        -- rewrite H7. exact (S6 Video).
      * rewrite H2, H3. exact S7.
      * intros b0 B. rewrite joined_snoc. cbn [snd]. rewrite H8. auto.
      * unfold asked. rewrite fold_left_app. exact S10.
    + intros [].
      * apply (kinv_choice Audio tr); [apply K| |apply received_incl|apply finished_reset; auto].
        rewrite subscribed_snoc, Nw. cbn [snd]. rewrite <- TV, H6, H1, <- S7. f_equal.
        unfold enabled. flags. fold (worklet tr). rewrite <- S3. reflexivity.
      * apply kinv_quiet; auto.
  - destruct (w_connect s) as [p|] eqn:Wc.
    2:{ injection E as <- <-. apply inv_bad; [split; [exact S|exact K]| |exact I]. unfold Player.wstep. rewrite S1, Wc. reflexivity. }
    destruct (strip_slash p) as [q|]; [|injection E as <- <-; destruct P; cbn; auto].
    destruct ok; injection E as <- <-.
    + split.
      * split; auto; cbn [w_dead w_audio w_video w_broadcast w_connect]; try (flags; assumption).
        -- intro k. rewrite subscribed_snoc. cbn. apply S6.
        -- rewrite newest_snoc. exact S7.
        -- rewrite newest_snoc. exact S8.
        -- intros b B. rewrite joined_snoc. cbn. congruence.
        -- unfold asked. rewrite fold_left_app. reflexivity.
      * intro k. apply kinv_quiet; auto.
    + split.
      * split; auto; cbn [w_dead w_audio w_video w_broadcast w_connect]; try (flags; assumption).
        -- intro k. rewrite subscribed_snoc. cbn. apply S6.
        -- rewrite newest_snoc. exact S7.
        -- rewrite newest_snoc. exact S8.
        -- intros b B. rewrite joined_snoc. cbn. auto.
        -- unfold asked. rewrite fold_left_app. reflexivity.
      * intro k. apply kinv_quiet; auto.
  - destruct (w_broadcast s) as [b|] eqn:Wb.
    2:{ injection E as <- <-. apply inv_bad; [split; [exact S|exact K]| |exact I]. unfold Player.wstep. rewrite S1, Wb. reflexivity. }
    assert (J : joined tr = Some b) by auto.
    assert (Cat : forall y st c q, match c with Some c => q = Newer c | None => q = Ended end ->
      forall xx ss, (let r := set_catalog builds (W (w_connect s) y (w_audio s) (w_video s) (w_count s) false) b c in
        (fst r, EStatus st :: snd r)) = (ss, xx) -> (forall b', y = Some b' -> b' = b) ->
      inv ss (tr ++ [(WCatalog q, xx)])).
    { clear E P. intros y st c q Hr xx ss E Hy. unfold set_catalog in E. cbv zeta in E. cbn [w_audio w_video w_connect w_broadcast w_count w_dead] in E.
      set (a := A _ _ _ _ _) in E. set (v := V _ _ _ _ _) in E.
      pose proof (audio_choice a) as HA. pose proof (video_choice v) as HV. cbv zeta in HA, HV.
      destruct (audio_reinit builds a) as [a' xa] eqn:Ra. destruct (video_reinit builds v) as [v' xv] eqn:Rv. cbn [fst snd] in *.
      injection E as <- <-.
      destruct HA as (A1 & A2 & A3 & A4 & A5 & A6 & A7 & A8 & A9 & A10).
      destruct HV as (H1 & H2 & H3 & H4 & H5 & H6 & H7 & H8 & H9 & H10).
      assert (TA : a_track a = subscribed Audio tr) by exact (S6 Audio).
      assert (TV : v_track v = subscribed Video tr) by exact (S6 Video).
      assert (X : happened (EStatus st :: xa ++ xv) = true) by (destruct xa; [destruct xv|]; reflexivity).
      assert (Nw : newest (tr ++ [(WCatalog q, EStatus st :: xa ++ xv)]) = pair_up (Some b) c).
      { rewrite newest_snoc. cbn [fst snd]. rewrite X. destruct c; subst q; [rewrite J|]; reflexivity. }
      assert (SA : subscribed Audio (tr ++ [(WCatalog q, EStatus st :: xa ++ xv)]) = a_track a').
      { rewrite subscribed_snoc. cbn [snd fold_left sub_upd]. rewrite fold_left_app, <- TA, A6. apply H7. }
      assert (SV : subscribed Video (tr ++ [(WCatalog q, EStatus st :: xa ++ xv)]) = v_track v').
      { rewrite subscribed_snoc. cbn [snd fold_left sub_upd]. rewrite fold_left_app, A7, <- TV. exact H6. }
      split.
      - split; auto; cbn [w_dead w_audio w_video w_broadcast w_connect]; rewrite ?Nw; auto.
        + flags. rewrite A5. exact S2.
        + flags. rewrite A4. exact S3.
        + flags. rewrite H5. exact S4.
        + flags. rewrite H4. exact S5.
        + intros []; [rewrite SA|rewrite SV]; reflexivity.
        + rewrite A2, A3. reflexivity.
        + rewrite H2, H3. reflexivity.
        + intros b' B. rewrite joined_snoc. cbn [snd fold_left join_upd]. rewrite fold_left_app, A8, H8. rewrite (Hy _ B). exact J.
        + unfold asked. rewrite fold_left_app. exact S10.
      - intros [].
        + apply (kinv_choice Audio tr); [apply K| |apply received_incl|apply finished_reset; [exact X|destruct c; subst q; exact I]].
          rewrite SA, Nw, A1, <- TA. f_equal.
          unfold enabled. flags. fold (muted tr) (worklet tr). rewrite <- S2, <- S3. reflexivity.
        + apply (kinv_choice Video tr); [apply K| |apply received_incl|apply finished_reset; [exact X|destruct c; subst q; exact I]].
          rewrite SV, Nw, H1, <- TV. f_equal.
          unfold enabled. flags. fold (visible tr) (canvas tr). rewrite <- S4, <- S5. reflexivity. }
    destruct r as [c| |].
    + eapply (Cat _ _ (Some c)); [reflexivity|exact E|congruence].
    + eapply (Cat _ _ None); [reflexivity|exact E|congruence].
    + injection E as <- <-. split.
      * split; auto; cbn [w_dead w_audio w_video w_broadcast w_connect]; try (flags; assumption).
        -- intro k. rewrite subscribed_snoc. cbn. apply S6.
        -- rewrite newest_snoc. exact S7.
        -- rewrite newest_snoc. exact S8.
        -- discriminate.
        -- unfold asked. rewrite fold_left_app. exact S10.
      * intro k. apply kinv_quiet; auto.
  - destruct k.
    + destruct (a_track (w_audio s)) as [t|] eqn:T.
      2:{ injection E as <- <-. apply inv_bad; [split; [exact S|exact K]| |exact I]. unfold Player.wstep. rewrite S1, T. reflexivity. }
      injection E as <- <-. split.
      * split; auto; cbn [w_dead w_audio w_video w_broadcast w_connect a_muted a_worklet a_broadcast a_catalog fst]; try (flags; assumption).
        -- intro k. rewrite subscribed_snoc. destruct k; cbn; [reflexivity|]. apply (S6 Video).
        -- rewrite newest_snoc. exact S7.
        -- rewrite newest_snoc. exact S8.
        -- intros b B. rewrite joined_snoc. cbn. auto.
        -- unfold asked. rewrite fold_left_app. exact S10.
      * intros []; [|apply kinv_quiet; auto]. apply kinv_end; [rewrite subscribed_snoc; reflexivity|].
        unfold finished. rewrite fold_left_app. reflexivity.
    + destruct (v_track (w_video s)) as [t|] eqn:T.
      2:{ injection E as <- <-. apply inv_bad; [split; [exact S|exact K]| |exact I]. unfold Player.wstep. rewrite S1, T. reflexivity. }
      injection E as <- <-. split.
      * split; auto; cbn [w_dead w_audio w_video w_broadcast w_connect v_visible v_canvas v_broadcast v_catalog fst]; try (flags; assumption).
        -- intro k. rewrite subscribed_snoc. destruct k; cbn; [|reflexivity]. apply (S6 Audio).
        -- rewrite newest_snoc. exact S7.
        -- rewrite newest_snoc. exact S8.
        -- intros b B. rewrite joined_snoc. cbn. auto.
        -- unfold asked. rewrite fold_left_app. exact S10.
      * intros []; [apply kinv_quiet; auto|]. apply kinv_end; [rewrite subscribed_snoc; reflexivity|].
        unfold finished. rewrite fold_left_app. reflexivity.
  - destruct (track_of s k) as [t|] eqn:T.
    2:{ injection E as <- <-. apply inv_bad; [split; [exact S|exact K]| |exact I]. unfold Player.wstep. rewrite S1, T. reflexivity. }
    injection E as <- <-. split.
    + split; auto; cbn [w_dead w_audio w_video w_broadcast w_connect]; try (flags; assumption).
      * intro k'. rewrite subscribed_snoc. cbn. apply S6.
      * rewrite newest_snoc. exact S7.
      * rewrite newest_snoc. exact S8.
      * intros b B. rewrite joined_snoc. cbn. auto.
      * unfold asked. rewrite fold_left_app. exact S10.
    + intro k'. apply kinv_quiet; auto.
Qed.

Lemma inv_run ops : ~ panicked (snd (wrun watch_new ops)) -> inv (fst (wrun watch_new ops)) (snd (wrun watch_new ops)).
Proof.
  induction ops as [|o ops IH] using rev_ind; [intros _; exact inv_new|].
  rewrite wrun_snoc. cbn [fst snd]. intro P. unfold panicked in *. rewrite effects_snoc in P. cbn [snd] in P.
  eapply inv_step; [apply IH|apply surjective_pairing|]; intro H; apply P; apply in_or_app; auto.
Qed.

(** ** Consequences *)
Lemma run_inv ops s tr : wrun watch_new ops = (s, tr) -> ~ panicked tr -> inv s tr.
Proof. intros E P. pose proof (inv_run ops) as H. rewrite E in H. auto. Qed.

Theorem only_enabled ops s tr k : wrun watch_new ops = (s, tr) -> ~ panicked tr ->
  subscribed k tr <> None -> enabled k tr = true.
Proof.
  intros E P H. destruct (run_inv _ _ _ E P) as [_ K]. destruct (subscribed k tr) as [t|] eqn:T; [|congruence].
  apply (ki_on _ _ (K k) t T).
Qed.
Theorem plays_subscribed ops s tr k o t : wrun watch_new ops = (s, tr) -> ~ panicked tr ->
  In (EPlay k t) (snd (wstep s o)) -> subscribed k tr = Some t.
Proof.
  intros E P H. destruct (run_inv _ _ _ E P) as [S K]. unfold Player.wstep in H. rewrite (si_dead _ _ S) in H.
  assert (NV : forall v, ~ In (EPlay k t) (snd (video_reinit builds v))).
  { intros [[x|] [b|] [[[|r l] ca]|] [] []]; unfold video_reinit; cbn; intros I; try destruct (same_track (sb_info x) r); try destruct (builds (rn_config r));
      cbn in I; intuition discriminate. }
  assert (NA : forall v, ~ In (EPlay k t) (snd (audio_reinit builds v))).
  { intros [[x|] [b|] [[cv [|r l]]|] [] []]; unfold audio_reinit; cbn; intros I; try destruct (same_track (sb_info x) r); try destruct (builds (rn_config r));
      cbn in I; intuition discriminate. }
  destruct o as [p|b|b|b|b|ok|r|k'|k']; cbv zeta in H; unfold with_video, with_audio in H; cbn [fst snd] in H;
    try (exfalso; first [exact (NV _ H)|exact (NA _ H)]).
  - cbn in H. intuition discriminate.
  - destruct (w_connect s) as [p|]; [destruct (strip_slash p); [destruct ok|]|]; cbn in H; intuition discriminate.
  - destruct (w_broadcast s) as [b|]; [|cbn in H; intuition discriminate].
    unfold set_catalog in H. destruct r; cbn [fst snd] in H.
    + destruct H as [H|H]; [discriminate|]. apply in_app_or in H. destruct H as [H|H]; [destruct (NA _ H)|destruct (NV _ H)].
    + destruct H as [H|H]; [discriminate|]. apply in_app_or in H. destruct H as [H|H]; [destruct (NA _ H)|destruct (NV _ H)].
    + cbn in H. intuition discriminate.
  - destruct k'; [destruct (a_track (w_audio s))|destruct (v_track (w_video s))]; cbn in H; intuition discriminate.
  - destruct (track_of s k') as [t'|] eqn:T; cbn in H; [|intuition discriminate].
    destruct H as [H|[]]. injection H as -> ->. rewrite <- T. symmetry. apply (si_sub _ _ S).
Qed.
Theorem frame_played ops s tr k t : wrun watch_new ops = (s, tr) -> ~ panicked tr ->
  subscribed k tr = Some t -> snd (wstep s (WFrame k)) = [EPlay k t].
Proof.
  intros E P H. destruct (run_inv _ _ _ E P) as [S K]. unfold Player.wstep. rewrite (si_dead _ _ S), (si_sub _ _ S), H. reflexivity.
Qed.
Theorem newest_track ops s tr k t : wrun watch_new ops = (s, tr) -> ~ panicked tr -> subscribed k tr = Some t ->
  exists b c r, newest tr = Some (b, c) /\ first k c = Some r /\ tracks_equal (sb_info t) r.
Proof. intros E P H. destruct (run_inv _ _ _ E P) as [_ K]. apply (ki_on _ _ (K k) t H). Qed.
Theorem newest_source ops s tr k t : wrun watch_new ops = (s, tr) -> ~ panicked tr -> told_apart k tr -> subscribed k tr = Some t ->
  exists c, newest tr = Some (sb_broadcast t, c) /\ first k c = Some (sb_info t).
Proof.
  intros E P D H. destruct (run_inv _ _ _ E P) as [_ K]. destruct (ki_on _ _ (K k) t H) as (_ & b & c & r & N & F & T).
  destruct (ki_src _ _ (K k) t H) as (c' & I & F').
  destruct (D _ _ _ _ _ _ I (newest_received _ _ N) F' F T) as [A B]. exists c. subst b r. auto.
Qed.
Theorem plays_exact ops s tr k : wrun watch_new ops = (s, tr) -> ~ panicked tr -> decodable builds k tr ->
  (subscribed k tr <> None <-> enabled k tr = true /\ finished k tr = false /\
     exists b c r, newest tr = Some (b, c) /\ first k c = Some r).
Proof.
  intros E P D. destruct (run_inv _ _ _ E P) as [_ K]. split.
  - intro H. destruct (subscribed k tr) as [t|] eqn:T; [|congruence]. destruct (ki_on _ _ (K k) t T) as (A & b & c & r & N & F & _).
    split; [exact A|]. split; [|eauto]. destruct (finished k tr) eqn:Fi; [|reflexivity]. rewrite (ki_fin _ _ (K k) Fi) in T. discriminate.
  - intros (A & B & b & c & r & N & F) H. destruct (ki_off _ _ (K k) D H) as [X|[X|[X|(b' & c' & X & Y)]]]; congruence.
Qed.

Lemma strip_slash_spec p q : strip_slash p = Some q <-> p = "/"%byte :: q.
Proof.
  destruct p as [|a p]; cbn; [split; discriminate|]. destruct (Byte.eqb a "/"%byte) eqn:B.
  - apply Byte.byte_dec_bl in B. subst a. split; intro H; injection H as ->; reflexivity.
  - split; [discriminate|]. intro H. injection H as -> ->. discriminate B.
Qed.

Theorem joins_asked ops s tr o b p : wrun watch_new ops = (s, tr) -> ~ panicked tr ->
  In (EConsume b p) (snd (wstep s o)) -> asked tr = Some ("/"%byte :: p) /\ o = WSession true.
Proof.
  intros E P H. destruct (run_inv _ _ _ E P) as [S K]. unfold Player.wstep in H. rewrite (si_dead _ _ S) in H.
  assert (NV : forall v, ~ In (EConsume b p) (snd (video_reinit builds v))).
  { intros [[x|] [bb|] [[[|r l] ca]|] [] []]; unfold video_reinit; cbn; intros I; try destruct (same_track (sb_info x) r); try destruct (builds (rn_config r));
      cbn in I; intuition discriminate. }
  assert (NA : forall v, ~ In (EConsume b p) (snd (audio_reinit builds v))).
  { intros [[x|] [bb|] [[cv [|r l]]|] [] []]; unfold audio_reinit; cbn; intros I; try destruct (same_track (sb_info x) r); try destruct (builds (rn_config r));
      cbn in I; intuition discriminate. }
  destruct o as [q|q|q|q|q|ok|r|k'|k']; cbv zeta in H; unfold with_video, with_audio in H; cbn [fst snd] in H;
    try (exfalso; first [exact (NV _ H)|exact (NA _ H)]).
  - cbn in H. intuition discriminate.
  - rewrite <- (si_ask _ _ S). destruct (w_connect s) as [q|]; [|cbn in H; intuition discriminate].
    destruct (strip_slash q) as [q'|] eqn:Q; [|cbn in H; intuition discriminate].
    destruct ok; cbn in H; [|intuition discriminate]. destruct H as [H|[H|[]]]; [|discriminate]. injection H as _ ->.
    apply strip_slash_spec in Q. subst q. auto.
  - destruct (w_broadcast s) as [b'|]; [|cbn in H; intuition discriminate].
    unfold set_catalog in H. destruct r; cbn [fst snd] in H.
    + destruct H as [H|H]; [discriminate|]. apply in_app_or in H. destruct H as [H|H]; [destruct (NA _ H)|destruct (NV _ H)].
    + destruct H as [H|H]; [discriminate|]. apply in_app_or in H. destruct H as [H|H]; [destruct (NA _ H)|destruct (NV _ H)].
    + cbn in H. intuition discriminate.
  - destruct k'; [destruct (a_track (w_audio s))|destruct (v_track (w_video s))]; cbn in H; intuition discriminate.
  - destruct (track_of s k') as [t'|] eqn:T; cbn in H; intuition discriminate.
Qed.
Theorem session_joins ops s tr p : wrun watch_new ops = (s, tr) -> ~ panicked tr -> asked tr = Some ("/"%byte :: p) ->
  exists b, snd (wstep s (WSession true)) = [EConsume b p; EStatus Connected].
Proof.
  intros E P H. destruct (run_inv _ _ _ E P) as [S K]. unfold Player.wstep. rewrite (si_dead _ _ S), (si_ask _ _ S), H. cbn. eauto.
Qed.
Theorem panic_exact ops s tr o : wrun watch_new ops = (s, tr) -> ~ panicked tr ->
  (In EPanic (snd (wstep s o)) <-> (exists ok, o = WSession ok) /\ exists p, asked tr = Some p /\ forall q, p <> "/"%byte :: q).
Proof.
  intros E P. destruct (run_inv _ _ _ E P) as [S K]. unfold Player.wstep. rewrite (si_dead _ _ S).
  assert (NV : forall v, ~ In EPanic (snd (video_reinit builds v))) by (intro v; apply (video_choice v)).
  assert (NA : forall v, ~ In EPanic (snd (audio_reinit builds v))) by (intro v; apply (audio_choice v)).
  split.
  - intro H. destruct o as [q|q|q|q|q|ok|r|k'|k']; cbv zeta in H; unfold with_video, with_audio in H; cbn [fst snd] in H;
      try (exfalso; first [exact (NV _ H)|exact (NA _ H)]).
    + cbn in H. intuition discriminate.
    + split; [eauto|]. rewrite <- (si_ask _ _ S). destruct (w_connect s) as [q|]; [|cbn in H; intuition discriminate].
      exists q. split; [reflexivity|]. intros q' Q. apply strip_slash_spec in Q. rewrite Q in H. destruct ok; cbn in H; intuition discriminate.
    + destruct (w_broadcast s) as [b'|]; [|cbn in H; intuition discriminate].
      unfold set_catalog in H. destruct r; cbn [fst snd] in H.
      * destruct H as [H|H]; [discriminate|]. apply in_app_or in H. destruct H as [H|H]; [destruct (NA _ H)|destruct (NV _ H)].
      * destruct H as [H|H]; [discriminate|]. apply in_app_or in H. destruct H as [H|H]; [destruct (NA _ H)|destruct (NV _ H)].
      * cbn in H. intuition discriminate.
    + destruct k'; [destruct (a_track (w_audio s))|destruct (v_track (w_video s))]; cbn in H; intuition discriminate.
    + destruct (track_of s k') as [t'|] eqn:T; cbn in H; intuition discriminate.
  - intros ((ok & ->) & p & H & Q). rewrite (si_ask _ _ S), H. destruct (strip_slash p) as [q|] eqn:B; [|cbn; auto].
    apply strip_slash_spec in B. destruct (Q _ B).
Qed.

Lemma asked_in (tr : wevents) p : asked tr = Some p -> exists x, In (WConnect (Some p), x) tr.
Proof.
  induction tr as [|[o x] tr IH] using rev_ind; [discriminate|]. unfold asked. rewrite fold_left_app. cbn [fold_left]. fold (asked tr). intro H.
  assert (D : asked tr = Some p \/ o = WConnect (Some p)).
  { destruct o; auto; [right; congruence|]. destruct (happened x); [discriminate|auto]. }
  destruct D as [D|D].
  - destruct (IH D) as [y Y]. exists y. apply in_or_app. auto.
  - exists x. subst o. apply in_or_app. cbn. auto.
Qed.
Lemma ops_of_run ops : forall s, map fst (snd (wrun s ops)) = ops.
Proof.
  induction ops as [|o ops IH]; intro s; [reflexivity|]. cbn [Player.wrun]. destruct (wstep s o) as [s1 x]. specialize (IH s1).
  destruct (wrun s1 ops) as [s2 tr]. cbn in *. congruence.
Qed.
Theorem no_panic ops : (forall p, In (WConnect (Some p)) ops -> exists q, p = "/"%byte :: q) -> ~ panicked (snd (wrun watch_new ops)).
Proof.
  induction ops as [|o ops IH] using rev_ind; [intros _ []|]. intros H.
  assert (P : ~ panicked (snd (wrun watch_new ops))) by (apply IH; intros p I; apply H; apply in_or_app; auto).
  rewrite wrun_snoc. cbn [snd]. unfold panicked. rewrite effects_snoc. intro I. apply in_app_or in I. destruct I as [I|I]; [exact (P I)|].
  cbn [snd] in I. destruct (wrun watch_new ops) as [s tr] eqn:E. cbn [fst snd] in *.
  apply (panic_exact _ _ _ _ E P) in I. destruct I as (_ & p & A & Q). apply asked_in in A. destruct A as [x A].
  apply (in_map fst) in A. pose proof (ops_of_run ops watch_new) as M. rewrite E in M. cbn [snd] in M. rewrite M in A. cbn in A.
  destruct (H p) as [q ->]; [apply in_or_app; auto|]. exact (Q q eq_refl).
Qed.
Lemma no_status (l : list (effect C)) : (forall st, ~ In (EStatus st) l) -> forall t : option status,
  fold_left (fun t e => match e with EStatus st => Some st | _ => t end) l t = t.
Proof.
  induction l as [|e l IH]; intros H t; cbn; [reflexivity|]. rewrite IH by (intros st I; apply (H st); right; exact I).
  destruct e; try reflexivity. destruct (H st (or_introl eq_refl)).
Qed.

Lemma video_quiet v st : ~ In (EStatus st) (snd (video_reinit builds v)).
Proof.
  unfold video_reinit. repeat match goal with |- context[match ?x with _ => _ end] => destruct x end; cbn;
    try (intro I; repeat (destruct I as [I|I]; [discriminate|]); destruct I);
    unfold dropped; intro I; repeat match goal with _ : context[match ?x with _ => _ end] |- _ => destruct x end; cbn in I;
    repeat (destruct I as [I|I]; [discriminate|]); destruct I.
Qed.
Lemma audio_quiet v st : ~ In (EStatus st) (snd (audio_reinit builds v)).
Proof.
  unfold audio_reinit. repeat match goal with |- context[match ?x with _ => _ end] => destruct x end; cbn;
    try (intro I; repeat (destruct I as [I|I]; [discriminate|]); destruct I);
    unfold dropped; intro I; repeat match goal with _ : context[match ?x with _ => _ end] |- _ => destruct x end; cbn in I;
    repeat (destruct I as [I|I]; [discriminate|]); destruct I.
Qed.

Theorem status_due ops s tr : wrun watch_new ops = (s, tr) -> ~ panicked tr -> shown tr = due tr.
Proof.
  revert s tr. induction ops as [|o ops IH] using rev_ind; intros s tr E P; [cbn in E; injection E as <- <-; reflexivity|].
  rewrite wrun_snoc in E. destruct (wrun watch_new ops) as [s1 tr1] eqn:E1. cbn [fst snd] in E.
  injection E as <- <-. unfold panicked in P. rewrite effects_snoc in P. cbn [snd] in P.
  assert (P1 : ~ panicked tr1) by (intro I; apply P; apply in_or_app; auto).
  specialize (IH _ _ eq_refl P1). unfold shown, due. rewrite effects_snoc, !fold_left_app. cbn [snd fst fold_left].
  fold (shown tr1) (due tr1). rewrite <- IH. destruct (run_inv _ _ _ E1 P1) as [S K].
  assert (NP : ~ In EPanic (snd (wstep s1 o))) by (intro I; apply P; apply in_or_app; auto). clear P.
  unfold Player.wstep in *. rewrite (si_dead _ _ S) in *.
  destruct o as [q|q|q|q|q|ok|r|k'|k']; cbv zeta; unfold with_video, with_audio; cbn [fst snd];
    try (rewrite no_status by (intro; first [apply video_quiet|apply audio_quiet]); destruct (happened _); reflexivity).
  - destruct q; reflexivity.
  - destruct (w_connect s1) as [p|]; [|reflexivity]. destruct (strip_slash p); [|destruct NP; left; reflexivity]. destruct ok; reflexivity.
  - destruct (w_broadcast s1) as [b|]; [|reflexivity].
    assert (X : forall st (x : list (effect C)), happened (EStatus st :: x) = true) by (intros ? []; reflexivity).
    destruct r; [| |reflexivity]; cbn [fst snd]; rewrite X; cbn [fold_left]; unfold set_catalog; cbv zeta; cbn [fst snd];
      rewrite no_status by (intros st I; apply in_app_or in I; destruct I as [I|I]; [exact (audio_quiet _ _ I)|exact (video_quiet _ _ I)]);
      reflexivity.
  - destruct k'; [destruct (a_track (w_audio s1))|destruct (v_track (w_video s1))]; reflexivity.
  - destruct (track_of s1 k'); reflexivity.
Qed.

(** ** No subscription is left behind *)
Definition one {A} (t : option A) : Z := match t with Some _ => 1%Z | None => 0%Z end.
Lemma video_held v n : fold_left (count_upd Video) (snd (video_reinit builds v)) (n + one (v_track v))%Z = (n + one (v_track (fst (video_reinit builds v))))%Z /\
  forall m, fold_left (count_upd Audio) (snd (video_reinit builds v)) m = m.
Proof.
  destruct v as [t b c cv vi]. unfold video_reinit. cbn [v_track v_broadcast v_catalog v_canvas v_visible].
  destruct t as [t|], b as [b|], c as [[cv' ca]|], cv, vi; cbn [negb orb ct_video];
    try destruct cv' as [|r ?]; try destruct (same_track (sb_info t) r); try destruct (builds (rn_config r));
    cbn; (split; [lia|reflexivity]).
Qed.
Lemma audio_held v n : fold_left (count_upd Audio) (snd (audio_reinit builds v)) (n + one (a_track v))%Z = (n + one (a_track (fst (audio_reinit builds v))))%Z /\
  forall m, fold_left (count_upd Video) (snd (audio_reinit builds v)) m = m.
Proof.
  destruct v as [t b c cv vi]. unfold audio_reinit. cbn [a_track a_broadcast a_catalog a_worklet a_muted].
  destruct t as [t|], b as [b|], c as [[cv' ca]|], cv, vi; cbn [negb orb ct_audio];
    try destruct ca as [|r ?]; try destruct (same_track (sb_info t) r); try destruct (builds (rn_config r));
    cbn; (split; [lia|reflexivity]).
Qed.
Lemma held_track ops s tr k : wrun watch_new ops = (s, tr) -> held k tr = one (track_of s k).
Proof.
  revert s tr. induction ops as [|o ops IH] using rev_ind; intros s tr E; [cbn in E; injection E as <- <-; destruct k; reflexivity|].
  rewrite wrun_snoc in E. destruct (wrun watch_new ops) as [s1 tr1] eqn:E1. cbn [fst snd] in E.
  injection E as <- <-. specialize (IH _ _ eq_refl). unfold held in *. rewrite effects_snoc, fold_left_app, IH. cbn [snd]. clear - s1.
  assert (VH := fun v => video_held v 0). assert (AH := fun v => audio_held v 0). cbn [Z.add] in VH, AH.
  unfold Player.wstep. destruct (w_dead s1); [destruct k; reflexivity|]. unfold with_video, with_audio, track_of.
  destruct o as [q|q|q|q|q|ok|r|k'|k']; cbv zeta; cbn [fst snd w_audio w_video].
  - destruct k; reflexivity.
  - destruct k; [apply VH|]. exact (proj1 (VH (V (v_track (w_video s1)) _ _ _ _))).
  - destruct k; [apply VH|]. exact (proj1 (VH (V (v_track (w_video s1)) _ _ _ _))).
  - destruct k; [|apply AH]. exact (proj1 (AH (A (a_track (w_audio s1)) _ _ _ _))).
  - destruct k; [|apply AH]. exact (proj1 (AH (A (a_track (w_audio s1)) _ _ _ _))).
  - destruct (w_connect s1) as [p|]; [|destruct k; reflexivity]. destruct (strip_slash p); [|destruct k; reflexivity]. destruct ok, k; reflexivity.
  - destruct (w_broadcast s1) as [b|]; [|destruct k; reflexivity].
    destruct r as [c| |]; [| |destruct k; reflexivity]; cbn [fst snd]; unfold set_catalog; cbv zeta; cbn [fst snd fold_left count_upd w_audio w_video];
      rewrite fold_left_app; (destruct k; cbn [count_upd];
      [rewrite (proj2 (VH _)); exact (proj1 (AH (A (a_track (w_audio s1)) _ _ _ _)))
      |rewrite (proj2 (AH _)); exact (proj1 (VH (V (v_track (w_video s1)) _ _ _ _)))]).
  - destruct k'; [destruct (a_track (w_audio s1)) eqn:T|destruct (v_track (w_video s1)) eqn:T]; destruct k; cbn; rewrite ?T; reflexivity.
  - destruct k'; [destruct (a_track (w_audio s1)) eqn:T|destruct (v_track (w_video s1)) eqn:T]; destruct k; cbn; rewrite ?T; reflexivity.
Qed.
Theorem held_one ops s tr k : wrun watch_new ops = (s, tr) -> ~ panicked tr -> (0 <= held k tr <= if enabled k tr then 1 else 0)%Z.
Proof.
  intros E P. rewrite (held_track _ _ _ k E). destruct (run_inv _ _ _ E P) as [S K]. rewrite (si_sub _ _ S).
  destruct (subscribed k tr) as [t|] eqn:T; cbn [one]; [rewrite (proj1 (ki_on _ _ (K k) _ T)); lia|destruct (enabled k tr); lia].
Qed.
End P.
