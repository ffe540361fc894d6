(** Readers of a track of the JavaScript library. *)
From Coq Require Import NArith ZArith Arith List Lia Bool Sorted.
From Coq Require Import ZifyBool ZifyNat ZifyN.
From Verif.Model Require Import Base JsTrack.
From Verif.Spec Require Import JsTrackSpec.
Import ListNotations.
Open Scope N_scope.

(** * Lists *)

Lemma jset_length : forall A (l : list A) n a, length (jset l n a) = length l.
Proof. induction l; destruct n; cbn; intros; auto. Qed.
Lemma jset_same : forall A (l : list A) n a b, nth_error l n = Some b -> nth_error (jset l n a) n = Some a.
Proof. induction l; destruct n; cbn; intros; try discriminate; eauto. Qed.
Lemma jset_other : forall A (l : list A) n m a, n <> m -> nth_error (jset l n a) m = nth_error l m.
Proof. induction l; destruct n, m; cbn; intros; auto; try lia. Qed.
Lemma jset_inv : forall A (l : list A) n a m b, nth_error (jset l n a) m = Some b ->
  m = n /\ b = a /\ (n < length l)%nat \/ m <> n /\ nth_error l m = Some b.
Proof.
  induction l; destruct n, m; cbn; intros; try discriminate; auto.
  - injection H as <-. left. split; [|split]; auto. lia.
  - apply IHl in H. destruct H as [(-> & -> & H)|(H & E)]; [left; split; [|split]; auto; lia | right; split; auto].
Qed.

Lemma last_snoc : forall A (l : list A) a d, last (l ++ [a]) d = a.
Proof. induction l as [|b l IH]; cbn; intros; auto. rewrite IH. destruct l; auto. Qed.

Lemma added_snoc : forall tr e, added (tr ++ [e]) = added tr ++ match snd e with JNew id => [id] | _ => [] end.
Proof. intros. unfold added. rewrite flat_map_app. cbn. now rewrite app_nil_r. Qed.
Lemma written_snoc : forall tr e id, written (tr ++ [e]) id =
  written tr id ++ match e with (JWrite i f, JDone) => if i =? id then [f] else [] | _ => [] end.
Proof. intros. unfold written. rewrite flat_map_app. cbn. now rewrite app_nil_r. Qed.
Lemma places_snoc : forall r tr e, places r (tr ++ [e]) = places r tr ++
  (if concerns r (fst e) then match snd e with JGroupIs id => [(id, O)] | JFrameIs id k _ => [(id, S k)] | _ => [] end else []).
Proof. intros. unfold places. rewrite flat_map_app. cbn. now rewrite app_nil_r. Qed.
Lemma shown_snoc : forall r tr e, shown r (tr ++ [e]) = shown r tr ++
  (if concerns r (fst e) then match snd e with JFrameIs id k d => [((id, k), d)] | _ => [] end else []).
Proof. intros. unfold shown. rewrite flat_map_app. cbn. now rewrite app_nil_r. Qed.

(** * The writer's side *)

Record wside (t : jtrack) (tr : jtrace) : Prop := {
  w_vals : jt_vals t = None :: map Some (added tr) ++ match jt_end t with None => [] | Some _ => [None] end;
  w_ids : map jg_id (jt_groups t) = added tr;
  w_sorted : StronglySorted N.lt (added tr);
  w_below : Forall (fun id => id < jt_next t) (added tr);
  w_frames : forall g, In g (jt_groups t) -> jg_frames g = written tr (jg_id g);
  w_over : forall g e, In g (jt_groups t) -> jg_end g = Some e -> exists e', In (JEndGroup (jg_id g) e', JDone) tr;
  w_none : forall id, ~ In id (added tr) -> written tr id = [];
  w_end : forall e, jt_end t = Some e -> exists e', In (JEnd e', JDone) tr }.

Lemma w_init : wside jt_init [].
Proof. constructor; cbn; intros; try discriminate; try constructor; easy. Qed.

Lemma find_in : forall t id g, jfind t id = Some g -> In g (jt_groups t) /\ jg_id g = id.
Proof. intros t id g H. unfold jfind in H. apply find_some in H. destruct H as [H E]. apply N.eqb_eq in E. auto. Qed.
Lemma find_known : forall t id, In id (map jg_id (jt_groups t)) -> exists g, jfind t id = Some g.
Proof.
  intros t id H. destruct (jfind t id) eqn:E; eauto. exfalso.
  apply in_map_iff in H. destruct H as (g & <- & H).
  unfold jfind in E. pose proof (find_none _ _ E g H). cbn in H0. rewrite N.eqb_refl in H0. discriminate.
Qed.

Lemma sorted_snoc : forall l (x : N), StronglySorted N.lt l -> Forall (fun y => y < x) l -> StronglySorted N.lt (l ++ [x]).
Proof.
  induction l; cbn; intros; [repeat constructor|].
  inversion H; subst. inversion H0; subst. constructor; auto.
  apply Forall_app. split; auto.
Qed.

Lemma set_group_ids : forall t g, In (jg_id g) (map jg_id (jt_groups t)) ->
  map jg_id (jt_groups (set_group t g)) = map jg_id (jt_groups t).
Proof.
  intros. unfold set_group; cbn. rewrite map_map. apply map_ext. intros h. destruct (jg_id h =? jg_id g) eqn:E; auto.
  apply N.eqb_eq in E. auto.
Qed.

(** A step that is none of the writer's. *)
Lemma w_quiet : forall t tr t' e, wside t tr ->
  jt_next t' = jt_next t -> jt_vals t' = jt_vals t -> jt_end t' = jt_end t -> jt_groups t' = jt_groups t ->
  (forall id, snd e <> JNew id) -> (forall id f, e <> (JWrite id f, JDone)) -> wside t' (tr ++ [e]).
Proof.
  intros t tr t' e W N1 N2 N3 N4 H1 H2.
  assert (A : added (tr ++ [e]) = added tr).
  { rewrite added_snoc. destruct (snd e) eqn:E; try now rewrite app_nil_r. now destruct (H1 id). }
  assert (B : forall id, written (tr ++ [e]) id = written tr id).
  { intros. rewrite written_snoc. destruct e as [[] []]; try now rewrite app_nil_r.
    exfalso. eapply H2. reflexivity. }
  destruct W. constructor; rewrite ?A, ?N1, ?N2, ?N3, ?N4; auto; intros; rewrite ?B; auto.
  - edestruct w_over0 as [e' J]; eauto. exists e'. apply in_or_app; auto.
  - edestruct w_end0 as [e' J]; eauto. exists e'. apply in_or_app; auto.
Qed.

Lemma w_add : forall t tr t' id out e, wside t tr -> jt_next t <= id -> add_group t id = (t', out) -> snd e = out ->
  (forall id f, e <> (JWrite id f, JDone)) -> wside t' (tr ++ [e]).
Proof.
  intros t tr t' id out e W L A <- H2.
  assert (B : forall id, written (tr ++ [e]) id = written tr id).
  { intros. rewrite written_snoc. destruct e as [[] []]; try now rewrite app_nil_r.
    exfalso. eapply H2. reflexivity. }
  unfold add_group in A. destruct W. destruct (jt_end t) eqn:E; injection A as <- A.
  - assert (C : added (tr ++ [e]) = added tr) by (rewrite added_snoc, <- A, app_nil_r; auto).
    constructor; cbn; rewrite ?C; auto; intros; rewrite ?B; auto.
    + eapply Forall_impl; [|apply w_below0]. cbn; intros; lia.
    + edestruct w_over0 as [e' J]; eauto. exists e'. apply in_or_app; auto.
    + edestruct w_end0 as [e' J]; eauto. exists e'. apply in_or_app; auto.
  - assert (C : added (tr ++ [e]) = added tr ++ [id]) by (rewrite added_snoc, <- A; auto).
    assert (F : Forall (fun y => y < id) (added tr)) by (eapply Forall_impl; [|apply w_below0]; cbn; intros; lia).
    constructor; cbn; rewrite ?C.
    + rewrite w_vals0, map_app, app_nil_r. cbn. now rewrite app_nil_r.
    + rewrite map_app, w_ids0. reflexivity.
    + apply sorted_snoc; auto.
    + apply Forall_app. split; [eapply Forall_impl; [|apply F]; cbn; intros; lia | constructor; [lia|constructor]].
    + intros g J. rewrite B. apply in_app_or in J. destruct J as [J|[<-|[]]]; auto. cbn.
      symmetry. apply w_none0. intros J. rewrite Forall_forall in F. apply F in J. lia.
    + intros g e0 J K. apply in_app_or in J. destruct J as [J|[<-|[]]]; [|discriminate].
      edestruct w_over0 as [e' X]; eauto. exists e'. apply in_or_app; auto.
    + intros i J. rewrite B. apply w_none0. intros X. apply J. apply in_or_app; auto.
    + discriminate.
Qed.

Lemma w_group : forall t tr t' g g' e, wside t tr -> jfind t (jg_id g') = Some g ->
  t' = set_group t g' -> (forall id, snd e <> JNew id) ->
  jg_frames g' = written (tr ++ [e]) (jg_id g') ->
  (forall id, id <> jg_id g' -> written (tr ++ [e]) id = written tr id) ->
  (forall x, jg_end g' = Some x -> exists e', In (JEndGroup (jg_id g') e', JDone) (tr ++ [e])) ->
  wside t' (tr ++ [e]).
Proof.
  intros t tr t' g g' e W F -> H1 H2 H3 H4.
  assert (A : added (tr ++ [e]) = added tr).
  { rewrite added_snoc. destruct (snd e) eqn:E; try now rewrite app_nil_r. now destruct (H1 id). }
  apply find_in in F. destruct F as [F1 F2].
  assert (K : In (jg_id g') (map jg_id (jt_groups t))) by (rewrite <- F2; apply in_map; auto).
  destruct W.
  constructor; cbn [jt_vals jt_end jt_next set_group]; rewrite ?A; auto.
  - rewrite set_group_ids; auto.
  - intros h J. cbn in J. apply in_map_iff in J. destruct J as (h0 & J & K0).
    destruct (jg_id h0 =? jg_id g') eqn:E; subst h; auto.
    apply N.eqb_neq in E. rewrite H3; auto.
  - intros h x J X. cbn in J. apply in_map_iff in J. destruct J as (h0 & J & K0).
    destruct (jg_id h0 =? jg_id g') eqn:E; subst h; eauto.
    edestruct w_over0 as [e' Y]; eauto. exists e'. apply in_or_app; auto.
  - intros id J. rewrite H3; auto. intros ->. apply J. rewrite <- w_ids0. auto.
  - intros x J. edestruct w_end0 as [e' Y]; eauto. exists e'. apply in_or_app; auto.
Qed.

Lemma jstep_reader_quiet : forall t n r, jt_next (set_reader t n r) = jt_next t /\ jt_vals (set_reader t n r) = jt_vals t /\
  jt_end (set_reader t n r) = jt_end t /\ jt_groups (set_reader t n r) = jt_groups t.
Proof. intros. repeat split. Qed.

Lemma tick_call_out : forall t r b r' out, tick_call t r b = Some (r', out) ->
  forall id, out <> JNew id.
Proof.
  intros t r b r' out H id.
  unfold tick_call, race_frame, race_group, finish_frame, finish_group, take_group in H.
  destruct (jr_call r), (jr_group r) as [|[|]|], (jr_frame r) as [| |[|]|], (jr_cur r) as [[]|], b;
    repeat match type of H with
    | context [let (_, _) := ?x in _] => destruct x
    end; try discriminate; injection H as <- <-; discriminate.
Qed.

Lemma leave_out : forall r b id, snd (leave r b) <> JNew id.
Proof.
  intros. unfold leave. destruct (jr_call r), (jr_group r) as [|[|]|], (jr_frame r) as [| |[|]|], b; cbn; discriminate.
Qed.

Lemma w_step : forall t tr o t' out, wside t tr -> jstep t o = (t', out) -> wside t' (tr ++ [(o, out)]).
Proof.
  intros t tr o t' out W H.
  assert (Q : forall out, (forall id, out <> JNew id) -> (forall id f, (o, out) <> (JWrite id f, JDone)) -> wside t (tr ++ [(o, out)])).
  { intros. eapply w_quiet; eauto. }
  assert (Q2 : forall n r out, (forall id, out <> JNew id) -> (forall id f, (o, out) <> (JWrite id f, JDone)) ->
    wside (set_reader t n r) (tr ++ [(o, out)])).
  { intros. eapply w_quiet; eauto. }
  destruct o; cbn in H.
  - eapply w_add; eauto; try lia; discriminate.
  - destruct (id <? jt_next t) eqn:E.
    + injection H as <- <-. apply Q; discriminate.
    + eapply w_add; eauto; try lia; discriminate.
  - destruct (jt_end t) eqn:E; injection H as <- <-; [apply Q; discriminate|].
    destruct W. rewrite E in *.
    assert (A : added (tr ++ [(JEnd e, JDone)]) = added tr) by (rewrite added_snoc; cbn; now rewrite app_nil_r).
    assert (B : forall id, written (tr ++ [(JEnd e, JDone)]) id = written tr id)
      by (intros; rewrite written_snoc; now rewrite app_nil_r).
    constructor; cbn; rewrite ?A; auto; intros; rewrite ?B; auto.
    + rewrite w_vals0, app_nil_r. reflexivity.
    + edestruct w_over0 as [e' J]; eauto. exists e'. apply in_or_app; auto.
    + exists e. apply in_or_app. cbn. auto.
  - destruct (jfind t id) eqn:E; [|injection H as <- <-; apply Q; discriminate].
    destruct (jg_end j) eqn:X; injection H as <- <-; [apply Q; discriminate|].
    eapply (w_group _ _ _ j (JGroup id (jg_frames j ++ [f]) None)); eauto; cbn; try discriminate.
    + rewrite written_snoc, N.eqb_refl. f_equal. apply find_in in E. destruct E as [E <-]. apply W; auto.
    + intros i N. rewrite written_snoc. destruct (id =? i) eqn:Y; [apply N.eqb_eq in Y; congruence|]. now rewrite app_nil_r.
  - destruct (jfind t id) eqn:E; [|injection H as <- <-; apply Q; discriminate].
    destruct (jg_end j) eqn:X; injection H as <- <-; [apply Q; discriminate|].
    eapply (w_group _ _ _ j (JGroup id (jg_frames j) (Some e))); eauto; cbn; try discriminate.
    + rewrite written_snoc, app_nil_r. apply find_in in E. destruct E as [E <-]. apply W; auto.
    + intros. rewrite written_snoc, app_nil_r. auto.
    + intros x _. exists e. apply in_or_app. cbn. auto.
  - injection H as <- <-. eapply w_quiet; eauto; discriminate.
  - destruct (nth_error (jt_readers t) r); [|injection H as <- <-; apply Q; discriminate].
    destruct (jr_call j); try (injection H as <- <-; apply Q; discriminate).
    destruct (jr_left j); injection H as <- <-; [apply Q | apply Q2]; discriminate.
  - destruct (nth_error (jt_readers t) r); [|injection H as <- <-; apply Q; discriminate].
    destruct (jr_call j); try (injection H as <- <-; apply Q; discriminate).
    destruct (jr_left j); injection H as <- <-; [apply Q | apply Q2]; discriminate.
  - destruct (nth_error (jt_readers t) r); [|injection H as <- <-; apply Q; discriminate].
    destruct (jr_group j); try (injection H as <- <-; apply Q; discriminate).
    destruct (tick_next t k) as [[]|]; injection H as <- <-; [apply Q2 | apply Q]; discriminate.
  - destruct (nth_error (jt_readers t) r); [|injection H as <- <-; apply Q; discriminate].
    destruct (jr_frame j); try (injection H as <- <-; apply Q; discriminate).
    destruct (peek_frame t (jr_cur j)) as [[]]; injection H as <- <-; try (apply Q; discriminate); apply Q2; discriminate.
  - destruct (nth_error (jt_readers t) r); [|injection H as <- <-; apply Q; discriminate].
    destruct (tick_call t j group) as [[r' o']|] eqn:X; injection H as <- <-; [|apply Q; discriminate].
    apply Q2; [eapply tick_call_out; eauto | discriminate].
  - destruct (nth_error (jt_readers t) r); [|injection H as <- <-; apply Q; discriminate].
    injection H as <- <-. apply Q2; [|discriminate]. intros id. apply (leave_out j group id).
Qed.

(** * A reader's side *)

Definition frame_ok (t : jtrack) (tr : jtrace) (cur : option (N * nat)) (count : nat) (f : fprom) : Prop :=
  match f with
  | FOff => cur = None
  | FWait => exists id, cur = Some (id, count) /\ (count <= length (written tr id))%nat
  | FGot (Some d) => exists id, cur = Some (id, S count) /\ nth_error (written tr id) count = Some d
  | FGot None | FFail => exists id g, cur = Some (id, count) /\ length (written tr id) = count /\
                                      jfind t id = Some g /\ jg_end g <> None
  end.

Definition mark_ok (t : jtrack) (m : nat) (epoch : nat) (g : gprom) : Prop :=
  match g with
  | GWait k => (m <= k <= jt_epoch t)%nat
  | GGot (Some id) => exists j, (m < j < epoch)%nat /\ nth_error (jt_vals t) j = Some (Some id)
  | _ => True
  end.

Definition early (t : jtrack) (m : nat) (id : N) : Prop := exists j, (j <= m)%nat /\ nth_error (jt_vals t) j = Some (Some id).

Record rside (t : jtrack) (tr : jtrace) (n : nat) (r : jreader) : Prop := {
  r_left : jr_left r = true -> jr_cur r = None /\ jr_group r = GGot None /\ jr_frame r = FOff /\ jr_call r = CNone;
  r_epoch : (jr_epoch r <= S (jt_epoch t))%nat;
  r_mark : exists m, (m < jr_epoch r)%nat /\ Forall (fun p => early t m (fst p)) (places n tr) /\
           (forall id i, jr_cur r = Some (id, i) -> early t m id) /\ mark_ok t m (jr_epoch r) (jr_group r);
  r_frame : frame_ok t tr (jr_cur r) (jr_count r) (jr_frame r);
  r_sorted : StronglySorted before (places n tr);
  r_here : forall id i, jr_cur r = Some (id, i) ->
           Forall (fun p => before p (id, jr_count r) \/ p = (id, jr_count r)) (places n tr);
  r_cont : forall id i k, jr_cur r = Some (id, i) -> (k < jr_count r)%nat -> exists d, In ((id, k), d) (shown n tr);
  r_true : forall id k d, In ((id, k), d) (shown n tr) -> In id (added tr) /\ nth_error (written tr id) k = Some d;
  r_gapless : forall id k d, In ((id, S k), d) (shown n tr) -> exists d', In ((id, k), d') (shown n tr);
  r_over : jr_left r = false -> jr_group r = GGot None \/ jr_group r = GFail -> jt_end t <> None;
  r_fwait : jr_call r = CFrameWait -> jr_group r = GGot None;
  r_gwait : jr_call r = CGroupWait -> jr_frame r <> FWait /\ forall d, jr_frame r <> FGot (Some d) }.

Lemma waits_snoc : forall n tr e, waits n (tr ++ [e]) =
  if concerns n (fst e) then
    match e with
    | (JNextFrame _, JDone) => true
    | (_, JGroupIs _) | (_, JFrameIs _ _ _) | (_, JOver) | (_, JFailed) => false
    | (JLeave _ _, _) => false
    | _ => waits n tr
    end
  else waits n tr.
Proof. intros. unfold waits. now rewrite fold_left_app. Qed.

Lemma vals_len : forall t tr, wside t tr -> length (jt_vals t) = S (jt_epoch t).
Proof. intros. unfold jt_epoch. rewrite (w_vals _ _ H). reflexivity. Qed.

Lemma in_vals : forall t tr id, wside t tr -> In (Some id) (jt_vals t) <-> In id (added tr).
Proof.
  intros t tr id W. rewrite (w_vals _ _ W). split.
  - intros [H|H]; [discriminate|]. apply in_app_or in H. destruct H as [H|H].
    + apply in_map_iff in H. destruct H as (x & E & H). now injection E as <-.
    + destruct (jt_end t); [destruct H as [H|[]]; discriminate | destruct H].
  - intros H. right. apply in_or_app. left. now apply in_map.
Qed.
Lemma early_added : forall t tr m id, wside t tr -> early t m id -> In id (added tr).
Proof. intros t tr m id W (j & _ & H). eapply in_vals; eauto. eapply nth_error_In; eauto. Qed.

Lemma nth_added : forall t tr j id, wside t tr -> nth_error (jt_vals t) (S j) = Some (Some id) -> nth_error (added tr) j = Some id.
Proof.
  intros t tr j id W H. rewrite (w_vals _ _ W) in H. cbn in H.
  destruct (Nat.lt_ge_cases j (length (added tr))).
  - rewrite nth_error_app1 in H by (rewrite map_length; auto). rewrite nth_error_map in H.
    destruct (nth_error (added tr) j); cbn in H; congruence.
  - rewrite nth_error_app2 in H by (rewrite map_length; auto).
    destruct (jt_end t).
    + destruct (j - length (map Some (added tr)))%nat as [|[]]; discriminate.
    + destruct (j - length (map Some (added tr)))%nat; discriminate.
Qed.

Lemma sorted_nth : forall l i j (x y : N), StronglySorted N.lt l -> (i < j)%nat ->
  nth_error l i = Some x -> nth_error l j = Some y -> x < y.
Proof.
  induction l; intros i j x y SS L H1 H2; [destruct i; discriminate|].
  inversion SS; subst. destruct j; [lia|]. destruct i; cbn in *.
  - injection H1 as <-. rewrite Forall_forall in H4. apply H4. eapply nth_error_In; eauto.
  - eapply IHl; [exact H3| |exact H1|exact H2]. lia.
Qed.

Lemma later : forall t tr m j a b, wside t tr -> early t m a -> (m < j)%nat -> nth_error (jt_vals t) j = Some (Some b) -> a < b.
Proof.
  intros t tr m j a b W (i & I & A) L B.
  destruct i; [rewrite (w_vals _ _ W) in A; discriminate|]. destruct j; [lia|].
  apply (nth_added _ tr) in A; auto. apply (nth_added _ tr) in B; auto.
  eapply sorted_nth; [apply W| |exact A|exact B]. lia.
Qed.

Lemma last_nth : forall A (l : list A) d, l <> [] -> nth_error l (pred (length l)) = Some (last l d).
Proof.
  induction l as [|a l IH]; intros d H; [congruence|]. destruct l as [|b l]; [reflexivity|].
  cbn [length pred]. change (last (a :: b :: l) d) with (last (b :: l) d). rewrite <- IH by discriminate. reflexivity.
Qed.

Lemma start_ok : forall t tr m e0 e g, wside t tr -> (m < e0)%nat -> (e0 <= S (jt_epoch t))%nat ->
  start_next t e0 = (e, g) -> (m < e)%nat /\ (e <= S (jt_epoch t))%nat /\ mark_ok t m e g /\ g <> GGot None /\ g <> GFail.
Proof.
  intros t tr m e0 e g W L1 L2 H. unfold start_next in H.
  assert (V : nth_error (jt_vals t) (jt_epoch t) = Some (last (jt_vals t) None)).
  { unfold jt_epoch. apply last_nth. rewrite (w_vals _ _ W). discriminate. }
  destruct (Nat.leb e0 (jt_epoch t)) eqn:E.
  - apply Nat.leb_le in E. injection H as <- <-. split; [lia|]. split; [lia|].
    destruct (last (jt_vals t) None) eqn:X; cbn; (split; [|split; discriminate]).
    + exists (jt_epoch t). split; [lia|auto].
    + lia.
  - apply Nat.leb_gt in E. injection H as <- <-. split; [lia|]. split; [lia|]. cbn. split; [lia|split; discriminate].
Qed.

Lemma tick_ok : forall t tr m k e g, wside t tr -> (m <= k <= jt_epoch t)%nat -> tick_next t k = Some (e, g) ->
  (m < e)%nat /\ (e <= S (jt_epoch t))%nat /\ mark_ok t m e g /\ (g = GGot None \/ g = GFail -> jt_end t <> None).
Proof.
  intros t tr m k e g W L H. unfold tick_next in H.
  destruct (Nat.ltb k (jt_epoch t)) eqn:E.
  - apply Nat.ltb_lt in E. injection H as <- <-. split; [lia|]. split; [lia|].
    destruct (nth (S k) (jt_vals t) None) eqn:X; cbn; (split; [|intros [?|?]; discriminate]).
    + exists (S k). split; [lia|]. rewrite <- X. apply nth_error_nth'. rewrite (vals_len _ _ W). lia.
    + lia.
  - destruct (jt_end t) as [[]|]; try discriminate; injection H as <- <-; cbn; repeat split; try lia; intros _; discriminate.
Qed.

Lemma peek_ok : forall t tr id i f cur, wside t tr -> In id (added tr) -> (i <= length (written tr id))%nat ->
  peek_frame t (Some (id, i)) = (f, cur) -> frame_ok t tr cur i f /\ (cur = Some (id, i) \/ cur = Some (id, S i)) /\ f <> FOff.
Proof.
  intros t tr id i f cur W K L H. unfold peek_frame in H.
  rewrite <- (w_ids _ _ W) in K. destruct (find_known _ _ K) as [g G]. rewrite G in H.
  destruct (find_in _ _ _ G) as [G1 G2].
  assert (F : jg_frames g = written tr id) by (rewrite <- G2; apply W; auto).
  rewrite F in H. destruct (nth_error (written tr id) i) eqn:X.
  - injection H as <- <-. cbn. split; [|split; [auto|discriminate]]. exists id. auto.
  - apply nth_error_None in X.
    destruct (jg_end g) as [[]|] eqn:E; injection H as <- <-; cbn; (split; [|split; [auto|discriminate]]).
    + exists id, g. repeat split; auto; [lia | congruence].
    + exists id, g. repeat split; auto; [lia | congruence].
    + exists id. auto.
Qed.

(** The writer's steps, as a reader sees them. *)
Record grows (t : jtrack) (tr : jtrace) (t' : jtrack) (tr' : jtrace) : Prop := {
  g_vals : exists x, jt_vals t' = jt_vals t ++ x;
  g_end : jt_end t <> None -> jt_end t' <> None;
  g_added : forall id, In id (added tr) -> In id (added tr');
  g_written : forall id, exists x, written tr' id = written tr id ++ x;
  g_over : forall id g, jfind t id = Some g -> jg_end g <> None ->
           exists g', jfind t' id = Some g' /\ jg_end g' <> None /\ written tr' id = written tr id }.

Lemma early_grows : forall t tr t' tr' m id, grows t tr t' tr' -> early t m id -> early t' m id.
Proof.
  intros t tr t' tr' m id G (j & L & H). exists j. split; auto. destruct (g_vals _ _ _ _ G) as [x ->].
  rewrite nth_error_app1; auto. apply nth_error_Some. congruence.
Qed.
Lemma epoch_grows : forall t tr t' tr', wside t tr -> grows t tr t' tr' -> (jt_epoch t <= jt_epoch t')%nat.
Proof.
  intros t tr t' tr' W G. unfold jt_epoch. destruct (g_vals _ _ _ _ G) as [x ->]. rewrite app_length.
  rewrite (vals_len _ _ W). lia.
Qed.
Lemma frame_grows : forall t tr t' tr' cur c f, grows t tr t' tr' -> frame_ok t tr cur c f -> frame_ok t' tr' cur c f.
Proof.
  intros t tr t' tr' cur c f G F. unfold frame_ok in *. destruct f as [| |[d|]|]; auto.
  - destruct F as (id & E & L). exists id. split; auto. destruct (g_written _ _ _ _ G id) as [x ->]. rewrite app_length. lia.
  - destruct F as (id & E & L). exists id. split; auto. destruct (g_written _ _ _ _ G id) as [x ->].
    rewrite nth_error_app1; auto. apply nth_error_Some. congruence.
  - destruct F as (id & g & E & L & Y & Z). destruct (g_over _ _ _ _ G id g Y Z) as (g' & Y' & Z' & X).
    exists id, g'. rewrite X. auto.
  - destruct F as (id & g & E & L & Y & Z). destruct (g_over _ _ _ _ G id g Y Z) as (g' & Y' & Z' & X).
    exists id, g'. rewrite X. auto.
Qed.

Lemma r_keep : forall t tr t' e n r, wside t tr -> grows t tr t' (tr ++ [e]) -> rside t tr n r ->
  places n (tr ++ [e]) = places n tr -> shown n (tr ++ [e]) = shown n tr ->
  rside t' (tr ++ [e]) n r.
Proof.
  intros t tr t' e n r W G R P S. pose proof (epoch_grows _ _ _ _ W G) as E. destruct R.
  constructor; rewrite ?P, ?S; auto.
  - lia.
  - destruct r_mark0 as (m & M1 & M2 & M3 & M4). exists m. split; [auto|]. split.
    { eapply Forall_impl; [|exact M2]. intros p. eapply early_grows; eauto. }
    split; [intros; eapply early_grows; eauto|].
    unfold mark_ok in *. destruct (jr_group r) as [k|[id|]|]; auto; [lia|].
    destruct M4 as (j & L & H). exists j. split; auto. destruct (g_vals _ _ _ _ G) as [x ->].
    rewrite nth_error_app1; auto. apply nth_error_Some. congruence.
  - eapply frame_grows; eauto.
  - intros id k d H. destruct (r_true0 _ _ _ H) as [A B]. split; [eapply g_added; eauto|].
    destruct (g_written _ _ _ _ G id) as [x ->]. rewrite nth_error_app1; auto. apply nth_error_Some. congruence.
  - intros. eapply g_end; eauto.
Qed.

Lemma written_grow : forall tr e id, exists x, written (tr ++ [e]) id = written tr id ++ x.
Proof. intros. rewrite written_snoc. eauto. Qed.
Lemma added_grow : forall tr e id, In id (added tr) -> In id (added (tr ++ [e])).
Proof. intros. rewrite added_snoc. apply in_or_app. auto. Qed.

Lemma grows_quiet : forall t tr t' e, jt_vals t' = jt_vals t -> (jt_end t <> None -> jt_end t' <> None) -> jt_groups t' = jt_groups t ->
  (forall id f, e <> (JWrite id f, JDone)) -> grows t tr t' (tr ++ [e]).
Proof.
  intros t tr t' e V E G H. constructor; auto using added_grow, written_grow.
  - exists []. now rewrite V, app_nil_r.
  - intros id g F X. exists g. unfold jfind in *. rewrite G. repeat split; auto.
    rewrite written_snoc. destruct e as [[] []]; try now rewrite app_nil_r. now destruct (H id0 f).
Qed.

Lemma find_set : forall t g' id, jfind (set_group t g') id =
  match jfind t id with Some g => Some (if id =? jg_id g' then g' else g) | None => None end.
Proof.
  intros. unfold jfind, set_group. cbn. induction (jt_groups t) as [|h l IH]; cbn; auto.
  destruct (jg_id h =? jg_id g') eqn:E.
  - apply N.eqb_eq in E. rewrite E. destruct (jg_id g' =? id) eqn:F.
    + apply N.eqb_eq in F. subst. now rewrite N.eqb_refl.
    + rewrite IH. destruct (find _ l); auto.
  - destruct (jg_id h =? id) eqn:F; auto.
    apply N.eqb_eq in F. subst. now rewrite E.
Qed.

Lemma step_grows : forall t tr o t' out, wside t tr -> jstep t o = (t', out) -> grows t tr t' (tr ++ [(o, out)]).
Proof.
  intros t tr o t' out W H.
  assert (Q : forall out, (forall id f, (o, out) <> (JWrite id f, JDone)) -> grows t tr t (tr ++ [(o, out)])).
  { intros. apply grows_quiet; auto. }
  assert (Q2 : forall n r out, (forall id f, (o, out) <> (JWrite id f, JDone)) -> grows t tr (set_reader t n r) (tr ++ [(o, out)])).
  { intros. apply grows_quiet; auto. }
  assert (QA : forall id t' out, (forall id f, (o, out) <> (JWrite id f, JDone)) -> add_group t id = (t', out) ->
    grows t tr t' (tr ++ [(o, out)])).
  { intros id t0 out0 H1 H2. unfold add_group in H2. destruct (jt_end t) eqn:E; injection H2 as <- <-.
    - apply grows_quiet; auto. cbn. discriminate.
    - constructor; cbn; eauto using added_grow, written_grow.
      intros i g F X. exists g. split; [|split; auto].
      + unfold jfind in *. cbn. clear - F. induction (jt_groups t); cbn in *; [discriminate|].
        destruct (jg_id a =? i); auto.
      + rewrite written_snoc. destruct o; try now rewrite app_nil_r. }
  assert (QG : forall g g' out, (forall id, id <> jg_id g' -> written (tr ++ [(o, out)]) id = written tr id) ->
     jfind t (jg_id g') = Some g -> jg_end g = None -> grows t tr (set_group t g') (tr ++ [(o, out)])).
  { intros g g' out0 H1 F E. constructor; auto using added_grow, written_grow; [exists []; cbn; now rewrite app_nil_r|].
    intros i h X Y. exists h. rewrite find_set, X. destruct (i =? jg_id g') eqn:Z.
    - apply N.eqb_eq in Z. subst. congruence.
    - apply N.eqb_neq in Z. split; [|split]; auto. }
  destruct o; cbn in H.
  - eapply QA; eauto. discriminate.
  - destruct (id <? jt_next t).
    + injection H as <- <-. apply Q; discriminate.
    + eapply QA; eauto. discriminate.
  - destruct (jt_end t) eqn:E; injection H as <- <-; [apply Q; discriminate|].
    constructor; cbn; eauto using added_grow, written_grow.
    intros i g F X. exists g. split; [|split]; auto. rewrite written_snoc. now rewrite app_nil_r.
  - destruct (jfind t id) eqn:E; [|injection H as <- <-; apply Q; discriminate].
    destruct (jg_end j) eqn:X; injection H as <- <-; [apply Q; discriminate|].
    eapply QG; eauto. cbn. intros i N. rewrite written_snoc.
    destruct (id =? i) eqn:Y; [apply N.eqb_eq in Y; congruence|]. now rewrite app_nil_r.
  - destruct (jfind t id) eqn:E; [|injection H as <- <-; apply Q; discriminate].
    destruct (jg_end j) eqn:X; injection H as <- <-; [apply Q; discriminate|].
    eapply QG; eauto. cbn. intros i N. rewrite written_snoc. now rewrite app_nil_r.
  - injection H as <- <-. apply grows_quiet; auto; discriminate.
  - destruct (nth_error (jt_readers t) r); [|injection H as <- <-; apply Q; discriminate].
    destruct (jr_call j); try (injection H as <- <-; apply Q; discriminate).
    destruct (jr_left j); injection H as <- <-; [apply Q | apply Q2]; discriminate.
  - destruct (nth_error (jt_readers t) r); [|injection H as <- <-; apply Q; discriminate].
    destruct (jr_call j); try (injection H as <- <-; apply Q; discriminate).
    destruct (jr_left j); injection H as <- <-; [apply Q | apply Q2]; discriminate.
  - destruct (nth_error (jt_readers t) r); [|injection H as <- <-; apply Q; discriminate].
    destruct (jr_group j); try (injection H as <- <-; apply Q; discriminate).
    destruct (tick_next t k) as [[]|]; injection H as <- <-; [apply Q2 | apply Q]; discriminate.
  - destruct (nth_error (jt_readers t) r); [|injection H as <- <-; apply Q; discriminate].
    destruct (jr_frame j); try (injection H as <- <-; apply Q; discriminate).
    destruct (peek_frame t (jr_cur j)) as [[]]; injection H as <- <-; try (apply Q; discriminate); apply Q2; discriminate.
  - destruct (nth_error (jt_readers t) r); [|injection H as <- <-; apply Q; discriminate].
    destruct (tick_call t j group) as [[r' o']|] eqn:X; injection H as <- <-; [apply Q2 | apply Q]; discriminate.
  - destruct (nth_error (jt_readers t) r); [|injection H as <- <-; apply Q; discriminate].
    injection H as <- <-. apply Q2; discriminate.
Qed.

(** * The reader's own steps *)

Lemma r_same : forall t t' tr n r, jt_vals t' = jt_vals t -> jt_end t' = jt_end t -> jt_groups t' = jt_groups t ->
  rside t tr n r -> rside t' tr n r.
Proof.
  intros t t' tr n r V E G R.
  assert (J : jt_epoch t' = jt_epoch t) by (unfold jt_epoch; now rewrite V).
  destruct R. constructor; rewrite ?J, ?E; auto.
  - unfold early, mark_ok in *. rewrite V, J. auto.
  - unfold frame_ok, jfind in *. rewrite G. auto.
Qed.

Lemma r_set_call : forall t tr n r c, rside t tr n r ->
  (c <> CNone -> jr_left r = false) -> (c = CFrameWait -> jr_group r = GGot None) ->
  (c = CGroupWait -> jr_frame r <> FWait /\ forall d, jr_frame r <> FGot (Some d)) -> rside t tr n (set_call r c).
Proof.
  intros t tr n r c R H1 H2 H3. destruct R. constructor; cbn; auto.
  intros L. destruct (r_left0 L) as (A & B & C & D). repeat split; auto. destruct c; auto; rewrite H1 in L; congruence.
Qed.

Lemma r_tick_g : forall t tr n r k e g, wside t tr -> rside t tr n r -> jr_group r = GWait k -> tick_next t k = Some (e, g) ->
  rside t tr n (JReader e (jr_left r) g (jr_cur r) (jr_count r) (jr_frame r) (jr_call r)).
Proof.
  intros t tr n r k e g W R K T. destruct R.
  destruct r_mark0 as (m & M1 & M2 & M3 & M4). rewrite K in M4. cbn in M4.
  destruct (tick_ok _ _ _ _ _ _ W M4 T) as (T1 & T2 & T3 & T4).
  constructor; cbn; auto.
  - intros L. destruct (r_left0 L) as (_ & B & _). congruence.
  - exists m. auto.
  - intros C. rewrite (r_fwait0 C) in K. discriminate.
Qed.

Lemma cur_added : forall t tr n r id i, wside t tr -> rside t tr n r -> jr_cur r = Some (id, i) -> In id (added tr).
Proof. intros t tr n r id i W R C. destruct (r_mark _ _ _ _ R) as (m & _ & _ & M & _). eapply early_added; eauto. Qed.

Lemma r_tick_f : forall t tr n r f cur, wside t tr -> rside t tr n r -> jr_frame r = FWait ->
  peek_frame t (jr_cur r) = (f, cur) ->
  rside t tr n (JReader (jr_epoch r) (jr_left r) (jr_group r) cur (jr_count r) f (jr_call r)).
Proof.
  intros t tr n r f cur W R F P. pose proof R as R0. destruct R. rewrite F in r_frame0. cbn in r_frame0.
  destruct r_frame0 as (id & C & L). rewrite C in P.
  destruct (peek_ok _ _ _ _ _ _ W (cur_added _ _ _ _ _ _ W R0 C) L P) as (P1 & P2 & P3).
  assert (X : forall id' i, cur = Some (id', i) -> id' = id) by (intros ? ? ->; destruct P2 as [P2|P2]; congruence).
  constructor; cbn; auto.
  - intros J. destruct (r_left0 J) as (A & _). congruence.
  - destruct r_mark0 as (m & M1 & M2 & M3 & M4). exists m. repeat split; auto.
    intros id' i J. rewrite (X _ _ J). eauto.
  - intros id' i J. rewrite (X _ _ J). eauto.
  - intros id' i k J. rewrite (X _ _ J). eauto.
  - intros J. destruct (r_gwait0 J) as [A _]. congruence.
Qed.

(** A reader goes to the start of group [id]. *)
Lemma r_take : forall t tr n r id e g f cur c, wside t tr -> rside t tr n r -> jr_left r = false -> jr_group r = GGot (Some id) ->
  start_next t (jr_epoch r) = (e, g) -> peek_frame t (Some (id, O)) = (f, cur) ->
  c <> CFrameWait -> c <> CGroupWait -> rside t tr n (JReader e (jr_left r) g cur 0 f c) /\
  Forall (fun p => before p (id, O)) (places n tr) /\ In id (added tr).
Proof.
  intros t tr n r id e g f cur c W R L G S P C1 C2. destruct R.
  destruct r_mark0 as (m & M1 & M2 & M3 & M4). rewrite G in M4. cbn in M4. destruct M4 as (j & J & V).
  assert (A : In id (added tr)) by (apply (in_vals _ _ _ W); eapply nth_error_In; eauto).
  assert (J2 : (j < jr_epoch r)%nat) by lia.
  destruct (start_ok _ _ j _ _ _ W J2 r_epoch0 S) as (S1 & S2 & S3 & S4 & S5).
  destruct (peek_ok _ _ _ _ _ _ W A (Nat.le_0_l _) P) as (P1 & P2 & P3).
  assert (X : forall id' i, cur = Some (id', i) -> id' = id) by (intros ? ? ->; destruct P2 as [P2|P2]; congruence).
  assert (Y : Forall (fun p => before p (id, O)) (places n tr)).
  { eapply Forall_impl; [|exact M2]. cbn. intros p E. left. cbn. eapply (later t tr m j); eauto; lia. }
  split; [|auto]. constructor; cbn; auto; try congruence.
  - exists j. split; [auto|]. split.
    { eapply Forall_impl; [|exact M2]. cbn. intros p (i & I & E). exists i. split; auto. lia. }
    split; [|auto]. intros id' i K. rewrite (X _ _ K). exists j. auto.
  - intros id' i K. rewrite (X _ _ K). eapply Forall_impl; [|exact Y]. cbn. auto.
  - intros; lia.
  - intros _ [E|E]; congruence.
Qed.

(** The event that gives a group. *)
Lemma r_give : forall t tr n r id e o, wside t tr -> rside t tr n r -> e = (o, JGroupIs id) -> concerns n o = true ->
  jr_cur r = None \/ (exists i, jr_cur r = Some (id, i) /\ jr_count r = O) ->
  Forall (fun p => before p (id, O)) (places n tr) ->
  (exists m, (m < jr_epoch r)%nat /\ Forall (fun p => early t m (fst p)) (places n tr) /\ early t m id /\
     (forall id i, jr_cur r = Some (id, i) -> early t m id) /\ mark_ok t m (jr_epoch r) (jr_group r)) ->
  rside t (tr ++ [e]) n r.
Proof.
  intros t tr n r id e o W R -> C H1 H2 (m & M1 & M2 & M3 & M4 & M5).
  assert (A : added (tr ++ [(o, JGroupIs id)]) = added tr) by (rewrite added_snoc; cbn; now rewrite app_nil_r).
  assert (B : forall i, written (tr ++ [(o, JGroupIs id)]) i = written tr i).
  { intros. rewrite written_snoc. destruct o; now rewrite app_nil_r. }
  assert (D : shown n (tr ++ [(o, JGroupIs id)]) = shown n tr) by (rewrite shown_snoc; cbn; rewrite C; now rewrite app_nil_r).
  assert (E : places n (tr ++ [(o, JGroupIs id)]) = places n tr ++ [(id, O)]) by (rewrite places_snoc; cbn; now rewrite C).
  destruct R. constructor; rewrite ?A, ?D, ?E; auto.
  - exists m. split; auto. split; [apply Forall_app; auto|auto].
  - unfold frame_ok in *. destruct (jr_frame r) as [| |[]|]; auto.
    + destruct r_frame0 as (i & F). exists i. now rewrite B.
    + destruct r_frame0 as (i & F). exists i. now rewrite B.
    + destruct r_frame0 as (i & g & F). exists i, g. now rewrite B.
    + destruct r_frame0 as (i & g & F). exists i, g. now rewrite B.
  - clear - r_sorted0 H2. induction (places n tr) as [|p l IH]; cbn; [repeat constructor|].
    inversion r_sorted0; inversion H2; subst. constructor; auto. apply Forall_app. auto.
  - intros id' i K. destruct H1 as [H1|(i' & H1 & H3)]; [congruence|].
    assert (id' = id) by congruence. subst. rewrite H3. apply Forall_app. split; auto.
    eapply Forall_impl; [|exact H2]. cbn. auto.
  - intros i k d K. rewrite B. auto.
Qed.

(** The event that gives a frame. *)
Lemma r_show : forall t tr n r id d f cur o, wside t tr -> rside t tr n r -> jr_left r = false -> concerns n o = true ->
  jr_frame r = FGot (Some d) -> jr_cur r = Some (id, S (jr_count r)) -> peek_frame t (jr_cur r) = (f, cur) ->
  rside t (tr ++ [(o, JFrameIs id (jr_count r) d)]) n
    (JReader (jr_epoch r) (jr_left r) (jr_group r) cur (S (jr_count r)) f CNone).
Proof.
  intros t tr n r id d f cur o W R L C F K P. pose proof (cur_added _ _ _ _ _ _ W R K) as AD.
  set (e := (o, JFrameIs id (jr_count r) d)).
  assert (A : added (tr ++ [e]) = added tr) by (rewrite added_snoc; cbn; now rewrite app_nil_r).
  assert (B : forall i, written (tr ++ [e]) i = written tr i).
  { intros. rewrite written_snoc. unfold e. destruct o; now rewrite app_nil_r. }
  assert (D : shown n (tr ++ [e]) = shown n tr ++ [((id, jr_count r), d)]) by (rewrite shown_snoc; cbn; now rewrite C).
  assert (E : places n (tr ++ [e]) = places n tr ++ [(id, S (jr_count r))]) by (rewrite places_snoc; cbn; now rewrite C).
  destruct R. rewrite F in r_frame0. cbn in r_frame0. destruct r_frame0 as (id0 & F1 & F2).
  assert (id0 = id) by congruence. subst id0.
  rewrite K in P.
  assert (LE : (S (jr_count r) <= length (written tr id))%nat) by (apply nth_error_Some; congruence).
  destruct (peek_ok _ _ _ _ _ _ W AD LE P) as (P1 & P2 & P3).
  assert (X : forall id' i, cur = Some (id', i) -> id' = id) by (intros ? ? ->; destruct P2 as [P2|P2]; congruence).
  assert (Y : Forall (fun p => before p (id, S (jr_count r))) (places n tr)).
  { eapply Forall_impl; [|eapply r_here0; eauto]. cbn. intros p [[?|?]| ->]; unfold before in *; cbn in *; lia. }
  constructor; cbn [jr_left jr_cur jr_group jr_frame jr_call jr_epoch jr_count]; rewrite ?A, ?D, ?E; auto; try congruence.
  - destruct r_mark0 as (m & M1 & M2 & M3 & M4). exists m. split; auto. split.
    { apply Forall_app. split; auto. constructor; auto. cbn. eauto. }
    split; auto. intros id' i J. rewrite (X _ _ J). eauto.
  - unfold frame_ok in *. destruct f as [| |[]|]; auto.
    + destruct P1 as (i & Z). exists i. now rewrite B.
    + destruct P1 as (i & Z). exists i. now rewrite B.
    + destruct P1 as (i & g & Z). exists i, g. now rewrite B.
    + destruct P1 as (i & g & Z). exists i, g. now rewrite B.
  - clear - r_sorted0 Y. induction (places n tr) as [|p l IH]; cbn; [repeat constructor|].
    inversion r_sorted0; inversion Y; subst. constructor; auto. apply Forall_app. auto.
  - intros id' i J. rewrite (X _ _ J). apply Forall_app. split; auto. eapply Forall_impl; [|exact Y]. cbn. auto.
  - intros id' i k J Z. rewrite (X _ _ J).
    destruct (Nat.eq_dec k (jr_count r)) as [->|N]; [exists d; apply in_or_app; cbn; auto|].
    edestruct r_cont0 as [d' Q]; [exact K| |]; [assert (k < jr_count r)%nat by lia; eauto|].
    exists d'. apply in_or_app. auto.
  - intros i k x J. rewrite B. apply in_app_or in J. destruct J as [J|[J|[]]]; auto.
    injection J as <- <- <-. auto.
  - intros i k x J. apply in_app_or in J. destruct J as [J|[J|[]]].
    + destruct (r_gapless0 _ _ _ J) as [d' Q]. exists d'. apply in_or_app. auto.
    + injection J as <- J1 <-. edestruct r_cont0 as [d' Q]; [exact K| |]; [assert (k < jr_count r)%nat by lia; eauto|].
      exists d'. apply in_or_app. auto.
Qed.

(** A reader that has no group any more. *)
Lemma r_none : forall t tr n r e lf g m, rside t tr n r -> (lf = true -> g = GGot None) ->
  (e <= S (jt_epoch t))%nat -> (m < e)%nat -> Forall (fun p => early t m (fst p)) (places n tr) -> mark_ok t m e g ->
  (lf = false -> g = GGot None \/ g = GFail -> jt_end t <> None) -> rside t tr n (JReader e lf g None 0 FOff CNone).
Proof.
  intros t tr n r e lf g m R H1 H2 H3 H4 H5 H6. destruct R. constructor; cbn; auto; try congruence.
  exists m. split; auto. split; auto. split; auto. congruence.
Qed.

Definition silent (out : jres) : Prop := (forall id, out <> JGroupIs id) /\ (forall id k d, out <> JFrameIs id k d).
Lemma silent_places : forall n tr o out, silent out -> places n (tr ++ [(o, out)]) = places n tr.
Proof.
  intros n tr o out [H1 H2]. rewrite places_snoc. cbn. destruct (concerns n o); [|now rewrite app_nil_r].
  destruct out; try now rewrite app_nil_r. - now destruct (H1 id). - now destruct (H2 id index data).
Qed.
Lemma silent_shown : forall n tr o out, silent out -> shown n (tr ++ [(o, out)]) = shown n tr.
Proof.
  intros n tr o out [H1 H2]. rewrite shown_snoc. cbn. destruct (concerns n o); [|now rewrite app_nil_r].
  destruct out; try now rewrite app_nil_r. now destruct (H2 id index data).
Qed.
Lemma other_places : forall n tr o out, concerns n o = false -> places n (tr ++ [(o, out)]) = places n tr.
Proof. intros. rewrite places_snoc. cbn. rewrite H. now rewrite app_nil_r. Qed.
Lemma other_shown : forall n tr o out, concerns n o = false -> shown n (tr ++ [(o, out)]) = shown n tr.
Proof. intros. rewrite shown_snoc. cbn. rewrite H. now rewrite app_nil_r. Qed.

Lemma call_left : forall t tr n r, rside t tr n r -> jr_call r <> CNone -> jr_left r = false.
Proof. intros t tr n r R H. destruct (jr_left r) eqn:L; auto. destruct (r_left _ _ _ _ R L) as (_ & _ & _ & X). congruence. Qed.

Lemma some_inj : forall A (a b : A), Some a = Some b -> a = b.
Proof. congruence. Qed.

(** The call in progress. *)
Lemma r_call : forall t tr n r b r' out o, wside t tr -> rside t tr n r -> tick_call t r b = Some (r', out) -> concerns n o = true ->
  (silent out /\ rside t tr n r') \/ (~ silent out /\ rside t (tr ++ [(o, out)]) n r').
Proof.
  intros t tr n r b r' out o W R T C.
  assert (SD : silent JDone) by (split; discriminate).
  assert (SO : silent JOver) by (split; discriminate).
  assert (SF : silent JFailed) by (split; discriminate).
  assert (NG : forall id, ~ silent (JGroupIs id)) by (intros id [H _]; now destruct (H id)).
  assert (NF : forall id k d, ~ silent (JFrameIs id k d)) by (intros id k d [_ H]; now destruct (H id k d)).
  assert (TAKE : forall id, jr_left r = false -> jr_group r = GGot (Some id) -> rside t tr n (take_group t r id)).
  { intros id L G. unfold take_group. destruct (start_next t (jr_epoch r)) as [e g] eqn:S.
    destruct (peek_frame t (Some (id, O))) as [f cur] eqn:P.
    destruct (match jr_cur r with Some (c, _) => id <=? c | None => false end) eqn:Q.
    - exfalso. destruct (jr_cur r) as [[c i]|] eqn:K; [|discriminate]. apply N.leb_le in Q.
      destruct (r_mark _ _ _ _ R) as (m & M1 & M2 & M3 & M4). rewrite G in M4. destruct M4 as (j & J & V).
      pose proof (later t tr m j c id W (M3 _ _ K) ltac:(lia) V). lia.
    - eapply r_take; eauto; discriminate. }
  assert (SHOW : forall d, jr_left r = false -> jr_frame r = FGot (Some d) ->
    exists id, finish_frame t r d = (fst (finish_frame t r d), JFrameIs id (jr_count r) d) /\
      rside t (tr ++ [(o, JFrameIs id (jr_count r) d)]) n (fst (finish_frame t r d))).
  { intros d L F. pose proof (r_frame _ _ _ _ R) as K. rewrite F in K. destruct K as (id & K & _). exists id.
    unfold finish_frame. rewrite K. destruct (peek_frame t (Some (id, S (jr_count r)))) as [f cur] eqn:P. cbn.
    split; auto. eapply r_show; eauto. now rewrite K. }
  unfold tick_call in T. pose proof (call_left _ _ _ _ R) as L.
  destruct (jr_call r) eqn:CALL; [discriminate| | | | ]; specialize (L ltac:(discriminate)).
  - (* nextGroup *)
    destruct (jr_group r) as [k|[id|]|] eqn:G; try discriminate; apply some_inj in T.
    + right. unfold finish_group in T. destruct (start_next t (jr_epoch r)) as [e g] eqn:S.
      destruct (peek_frame t (Some (id, O))) as [f cur] eqn:P. injection T as <- <-. split; auto.
      destruct (r_take _ _ _ _ _ _ _ _ _ CNone W R L G S P ltac:(discriminate) ltac:(discriminate)) as (R' & Y & A).
      eapply r_give; eauto.
      * cbn. destruct (peek_ok _ _ _ _ _ _ W A (Nat.le_0_l _) P) as (_ & [->| ->] & _); right; eauto.
      * pose proof (r_mark _ _ _ _ R) as (m & M1 & M2 & M3 & M4). rewrite G in M4. destruct M4 as (j & J & V).
        assert (J2 : (j < jr_epoch r)%nat) by lia.
        destruct (start_ok _ _ j _ _ _ W J2 (r_epoch _ _ _ _ R) S) as (S1 & S2 & S3 & _). exists j. cbn.
        split; auto. split.
        { eapply Forall_impl; [|exact M2]. cbn. intros p (i & I & E). exists i. split; auto. lia. }
        split; [exists j; auto|]. split; [|auto].
        intros id' i K. destruct (peek_ok _ _ _ _ _ _ W A (Nat.le_0_l _) P) as (_ & [X|X] & _);
          rewrite X in K; injection K as <- <-; exists j; auto.
    + left. unfold finish_group in T. destruct (start_next t (jr_epoch r)) as [e g] eqn:S. cbn in T. injection T as <- <-.
      split; auto. destruct (r_mark _ _ _ _ R) as (m & M1 & M2 & M3 & M4).
      destruct (start_ok _ _ m _ _ _ W M1 (r_epoch _ _ _ _ R) S) as (S1 & S2 & S3 & S4 & S5).
      eapply r_none; eauto; [congruence|]. intros _ [?|?]; congruence.
    + left. injection T as <- <-. split; auto. apply r_set_call; auto; discriminate.
  - (* the race *)
    assert (RF : forall x, race_frame t r = Some x ->
      (silent (snd x) /\ rside t tr n (fst x)) \/ (~ silent (snd x) /\ rside t (tr ++ [(o, snd x)]) n (fst x))).
    { intros x H. unfold race_frame in H. destruct (jr_frame r) as [| |[d|]|] eqn:F; try discriminate; injection H as <-.
      - left. split; auto. apply r_set_call; auto; try discriminate. intros _. rewrite F. split; discriminate.
      - right. destruct (SHOW d L eq_refl) as (id & E & X). rewrite E. cbn [fst snd]. auto.
      - left. split; auto. apply r_set_call; auto; try discriminate. intros _. rewrite F. split; discriminate.
      - left. split; auto. apply r_set_call; auto; try discriminate. intros _. rewrite F. split; discriminate. }
    assert (RG : forall x, race_group t r = Some x -> silent (snd x) /\ rside t tr n (fst x)).
    { intros x H. unfold race_group in H. destruct (jr_group r) as [k|[id|]|] eqn:G; try discriminate; injection H as <-; split; auto.
      - cbn. auto.
      - cbn. apply r_set_call; auto; discriminate.
      - cbn. apply r_set_call; auto; discriminate. }
    assert (Z : race_frame t r = Some (r', out) \/ race_group t r = Some (r', out)).
    { destruct (jr_frame r); auto; destruct (race_frame t r), (race_group t r), b; auto. }
    destruct Z as [Z|Z]; [apply RF in Z; auto | apply RG in Z; auto].
  - (* waiting for a group *)
    destruct (jr_group r) as [k|[id|]|] eqn:G; try discriminate; injection T as <- <-; left; split; auto;
      apply r_set_call; auto; discriminate.
  - (* waiting for a frame *)
    destruct (jr_frame r) as [| |[d|]|] eqn:F; try discriminate; apply some_inj in T.
    + left. injection T as <- <-. split; auto. apply r_set_call; auto; discriminate.
    + right. destruct (SHOW d L eq_refl) as (id & E & X). rewrite E in T. injection T as <- <-. auto.
    + left. injection T as <- <-. split; auto. apply r_set_call; auto; discriminate.
    + left. injection T as <- <-. split; auto. apply r_set_call; auto; discriminate.
Qed.

Lemma r_leave : forall t tr n r b r' out o, wside t tr -> rside t tr n r -> leave r b = (r', out) -> concerns n o = true ->
  (silent out /\ rside t tr n r') \/ (~ silent out /\ rside t (tr ++ [(o, out)]) n r').
Proof.
  intros t tr n r b r' out o W R T C. unfold leave in T. injection T as <- T.
  destruct (r_mark _ _ _ _ R) as (m & M1 & M2 & M3 & M4).
  assert (N : rside t tr n (JReader (jr_epoch r) true (GGot None) None 0 FOff CNone)).
  { eapply (r_none t tr n r _ _ _ m); eauto; [apply R | exact I | discriminate]. }
  destruct (jr_call r) eqn:CALL.
  - left. subst. split; auto. split; discriminate.
  - destruct (jr_group r) as [k|[id|]|] eqn:G.
    + left. subst. split; auto. split; discriminate.
    + right. subst. split; [intros [H _]; now destruct (H id)|].
      destruct M4 as (j & J & V).
      eapply r_give; eauto.
      * eapply Forall_impl; [|exact M2]. cbn. intros p E. left. cbn. eapply (later t tr m j); eauto; lia.
      * exists j. cbn. split; [lia|]. split.
        { eapply Forall_impl; [|exact M2]. cbn. intros p (i & X & E). exists i. split; auto. lia. }
        split; [exists j; auto|]. split; [discriminate|exact I].
    + left. subst. split; auto. split; discriminate.
    + left. subst. split; auto. split; discriminate.
  - left. split; auto. destruct (jr_group r) as [k|[id|]|], (jr_frame r) as [| |[d|]|], b; subst; split; discriminate.
  - left. split; auto. subst. split; discriminate.
  - left. split; auto. destruct (jr_group r) as [k|[id|]|], (jr_frame r) as [| |[d|]|], b; subst; split; discriminate.
Qed.

Definition in_frame (c : jcall) : bool := match c with CRace | CGroupWait | CFrameWait => true | _ => false end.

Record jinv (t : jtrack) (tr : jtrace) : Prop := {
  i_w : wside t tr;
  i_r : forall n r, nth_error (jt_readers t) n = Some r -> rside t tr n r;
  i_waits : forall n r, nth_error (jt_readers t) n = Some r -> waits n tr = in_frame (jr_call r);
  i_none : forall n, nth_error (jt_readers t) n = None -> places n tr = [] /\ shown n tr = [] /\ waits n tr = false }.

Lemma own : forall t tr n r o t' out, wside t tr -> rside t tr n r -> nth_error (jt_readers t) n = Some r ->
  waits n tr = in_frame (jr_call r) -> concerns n o = true -> jstep t o = (t', out) ->
  exists r', jt_readers t' = jset (jt_readers t) n r' /\ rside t' (tr ++ [(o, out)]) n r' /\
    waits n (tr ++ [(o, out)]) = in_frame (jr_call r').
Proof.
  intros t tr n r o t' out W R NE WT C H.
  pose proof (step_grows _ _ _ _ _ W H) as G.
  assert (SD : silent JDone) by (split; discriminate).
  assert (SO : silent JOver) by (split; discriminate).
  assert (SI : silent JIdle) by (split; discriminate).
  assert (IDEM : jset (jt_readers t) n r = jt_readers t).
  { clear - NE. revert n NE. induction (jt_readers t); destruct n; cbn; intros; try discriminate; [congruence|]. f_equal. auto. }
  assert (Q : forall r', rside t tr n r' -> silent out -> rside t' (tr ++ [(o, out)]) n r').
  { intros r' H1 H2. eapply r_keep; eauto using silent_places, silent_shown. }
  rewrite waits_snoc. cbn [fst]. rewrite C.
  destruct o; cbn in C; try discriminate; apply Nat.eqb_eq in C; subst r0; cbn [jstep] in H; rewrite NE in H.
  - destruct (jr_call r) eqn:CALL.
    2-5: injection H as <- <-; exists r; rewrite CALL; split; [auto|]; split; [eapply Q; eauto|auto].
    destruct (jr_left r) eqn:L; injection H as <- <-.
    + exists r. rewrite CALL. split; [auto|]. split; [eapply Q; eauto|auto].
    + eexists. split; [reflexivity|]. split; [eapply Q; eauto; apply r_set_call; auto; discriminate|]. cbn. rewrite WT. auto.
  - destruct (jr_call r) eqn:CALL.
    2-5: injection H as <- <-; exists r; rewrite CALL; split; [auto|]; split; [eapply Q; eauto|auto].
    destruct (jr_left r) eqn:L; injection H as <- <-.
    + exists r. rewrite CALL. split; [auto|]. split; [eapply Q; eauto|auto].
    + eexists. split; [reflexivity|]. split; [eapply Q; eauto; apply r_set_call; auto; discriminate|]. cbn. auto.
  - destruct (jr_group r) as [k|o|] eqn:GR; try (injection H as <- <-; exists r; split; [auto|]; split; [eapply Q; eauto|auto]).
    destruct (tick_next t k) as [[e g]|] eqn:TN; injection H as <- <-.
    + eexists. split; [reflexivity|]. split; [eapply Q; eauto; eapply r_tick_g; eauto|]. cbn. auto.
    + exists r; split; [auto|]; split; [eapply Q; eauto|auto].
  - destruct (jr_frame r) as [| |o|] eqn:F; try (injection H as <- <-; exists r; split; [auto|]; split; [eapply Q; eauto|auto]).
    destruct (peek_frame t (jr_cur r)) as [f cur] eqn:P.
    destruct f; injection H as <- <-; try (exists r; split; [auto|]; split; [eapply Q; eauto|auto]; fail);
      (eexists; split; [reflexivity|]; split; [eapply Q; eauto; eapply r_tick_f; eauto|]; cbn; auto).
  - destruct (tick_call t r group) as [[r' out']|] eqn:T; injection H as <- <-.
    2: exists r; split; [auto|]; split; [eapply Q; eauto|auto].
    exists r'. split; [reflexivity|]. split.
    + destruct (r_call _ _ _ _ _ _ _ (JTickC n group) W R T) as [[S R']|[S R']]; [cbn; apply Nat.eqb_refl| |].
      * eapply Q; eauto.
      * eapply r_same; [| | |exact R']; reflexivity.
    + rewrite WT. clear - T. unfold tick_call, race_frame, race_group, finish_frame, finish_group, take_group in T.
      destruct (jr_call r) eqn:CALL; [discriminate| | | | ];
        destruct (jr_group r) as [|[|]|], (jr_frame r) as [| |[|]|], group;
        repeat match type of T with
        | context [let (_, _) := ?x in _] => destruct x
        | context [match jr_cur r with _ => _ end] => destruct (jr_cur r) as [[]|]
        | context [if ?x then _ else _] => destruct x
        end; try discriminate; injection T as <- <-; reflexivity.
  - destruct (leave r group) as [r' out'] eqn:T. injection H as <- <-.
    exists r'. split; [reflexivity|]. split.
    + destruct (r_leave _ _ _ _ _ _ _ (JLeave n group) W R T) as [[S R']|[S R']]; [cbn; apply Nat.eqb_refl| |].
      * eapply Q; eauto.
      * eapply r_same; [| | |exact R']; reflexivity.
    + unfold leave in T. injection T as <- T. cbn. clear. destruct out'; auto.
Qed.

(** * All steps *)

Lemma j_init : jinv jt_init [].
Proof.
  constructor; [apply w_init| | |]; cbn; intros; try (destruct n; discriminate). auto.
Qed.

Lemma new_ok : forall t tr n, wside t tr -> places n tr = [] -> shown n tr = [] -> rside t tr n (new_reader t).
Proof.
  intros t tr n W P SH. unfold new_reader. destruct (start_next t 0) as [e g] eqn:E.
  assert (X : (e <= S (jt_epoch t))%nat /\ (0 < e)%nat /\ mark_ok t 0 e g /\ g <> GGot None /\ g <> GFail).
  { unfold start_next in E. cbn in E. injection E as <- <-. split; [lia|]. split; [lia|].
    destruct (last (jt_vals t) None) eqn:L; (split; [|split; discriminate]); cbn; [|lia].
    exists (jt_epoch t). assert (V : nth_error (jt_vals t) (jt_epoch t) = Some (Some n0)).
    { rewrite <- L. unfold jt_epoch. apply last_nth. rewrite (w_vals _ _ W). discriminate. }
    split; auto. destruct (jt_epoch t); [|lia]. rewrite (w_vals _ _ W) in V. discriminate. }
  destruct X as (X1 & X2 & X3 & X4 & X5).
  constructor; cbn; rewrite ?P, ?SH; auto; try congruence; try (now intros).
  - exists O. split; auto. split; [constructor|]. split; [congruence|auto].
  - constructor.
  - intros _ [?|?]; congruence.
Qed.

Definition who (o : jop) : option nat :=
  match o with
  | JNextGroup n | JNextFrame n | JTickG n | JTickF n | JTickC n _ | JLeave n _ => Some n
  | _ => None
  end.
Lemma concerns_who : forall n o, concerns n o = true <-> who o = Some n.
Proof.
  intros. destruct o; cbn; try (split; discriminate); (rewrite Nat.eqb_eq; split; [intros ->; auto | congruence]).
Qed.
Lemma concerns_other : forall n o, who o <> Some n -> concerns n o = false.
Proof. intros. destruct (concerns n o) eqn:E; auto. apply concerns_who in E. congruence. Qed.

Lemma nobody : forall t o n t' out, who o = Some n -> nth_error (jt_readers t) n = None -> jstep t o = (t', out) -> t' = t /\ out = JIdle.
Proof. intros t o n t' out H N S. destruct o; cbn in H; try discriminate; injection H as ->; cbn in S; rewrite N in S; now injection S as <- <-. Qed.

Lemma writer_readers : forall t o t' out, who o = None -> o <> JConsume -> jstep t o = (t', out) -> jt_readers t' = jt_readers t.
Proof.
  intros t o t' out H N S. destruct o; cbn in H; try discriminate; try congruence; cbn in S.
  - unfold add_group in S. destruct (jt_end t); now injection S as <- <-.
  - destruct (id <? jt_next t); [now injection S as <- <-|]. unfold add_group in S. destruct (jt_end t); now injection S as <- <-.
  - destruct (jt_end t); now injection S as <- <-.
  - destruct (jfind t id); [|now injection S as <- <-]. destruct (jg_end j); now injection S as <- <-.
  - destruct (jfind t id); [|now injection S as <- <-]. destruct (jg_end j); now injection S as <- <-.
Qed.

Lemma waits_other : forall n tr o out, concerns n o = false -> waits n (tr ++ [(o, out)]) = waits n tr.
Proof. intros. rewrite waits_snoc. cbn. now rewrite H. Qed.
Lemma waits_idle : forall n tr o, waits n tr = false -> waits n (tr ++ [(o, JIdle)]) = false.
Proof. intros. rewrite waits_snoc. cbn. destruct (concerns n o); auto. destruct o; auto. Qed.

Lemma j_step : forall t tr o t' out, jinv t tr -> jstep t o = (t', out) -> jinv t' (tr ++ [(o, out)]).
Proof.
  intros t tr o t' out J S. pose proof (w_step _ _ _ _ _ (i_w _ _ J) S) as W'.
  pose proof (step_grows _ _ _ _ _ (i_w _ _ J) S) as G. destruct J as [W R WT NO].
  assert (OTHER : forall n r, who o <> Some n -> rside t tr n r -> rside t' (tr ++ [(o, out)]) n r).
  { intros n r H X. apply concerns_other in H. eapply r_keep; eauto using other_places, other_shown. }
  destruct (who o) as [n|] eqn:WHO.
  - destruct (nth_error (jt_readers t) n) as [r|] eqn:NE.
    + destruct (own _ _ _ _ _ _ _ W (R _ _ NE) NE (WT _ _ NE) (proj2 (concerns_who n o) WHO) S) as (r' & E & X & Y).
      constructor; auto.
      * intros n' q H. rewrite E in H. apply jset_inv in H. destruct H as [(-> & -> & _)|(H & K)]; auto.
        apply OTHER; auto. congruence.
      * intros n' q H. rewrite E in H. apply jset_inv in H. destruct H as [(-> & -> & _)|(H & K)]; auto.
        rewrite waits_other; auto. apply concerns_other. congruence.
      * intros n' H. rewrite E in H.
        assert (NN : nth_error (jt_readers t) n' = None) by (apply nth_error_None in H; rewrite jset_length in H; apply nth_error_None; auto).
        assert (CC : concerns n' o = false) by (apply concerns_other; congruence).
        rewrite other_places, other_shown, waits_other; auto.
    + destruct (nobody _ _ _ _ _ WHO NE S) as [-> ->]. assert (SI : silent JIdle) by (split; discriminate).
      constructor; auto.
      * intros n' q H. apply OTHER; auto. congruence.
      * intros n' q H. rewrite waits_other; auto. apply concerns_other. congruence.
      * intros n' H. rewrite silent_places, silent_shown by auto. destruct (NO _ H) as (A & B & C). auto using waits_idle.
  - assert (OP : forall n, concerns n o = false) by (intros; apply concerns_other; congruence).
    assert (DEC : o = JConsume \/ o <> JConsume) by (destruct o; auto; right; discriminate).
    destruct DEC as [->|NC].
    + cbn in S. injection S as <- <-. constructor; auto; cbn [jt_readers].
      * intros n r H. destruct (Nat.lt_ge_cases n (length (jt_readers t))).
        { rewrite nth_error_app1 in H by auto. apply OTHER; auto. discriminate. }
        rewrite nth_error_app2 in H by auto. destruct (n - length (jt_readers t))%nat as [|k] eqn:K; [|destruct k; discriminate].
        injection H as <-. destruct (NO n) as (A & B & C); [apply nth_error_None; lia|].
        apply OTHER; [discriminate|]. apply new_ok; auto.
      * intros n r H. rewrite waits_other by auto. destruct (Nat.lt_ge_cases n (length (jt_readers t))).
        { rewrite nth_error_app1 in H by auto. auto. }
        rewrite nth_error_app2 in H by auto. destruct (n - length (jt_readers t))%nat as [|k] eqn:K; [|destruct k; discriminate].
        injection H as <-. destruct (NO n) as (A & B & C); [apply nth_error_None; lia|]. rewrite C.
        unfold new_reader. now destruct (start_next t 0).
      * intros n H. apply nth_error_None in H. rewrite app_length in H. cbn in H.
        destruct (NO n) as (A & B & C); [apply nth_error_None; lia|].
        rewrite other_places, other_shown, waits_other; auto.
    + pose proof (writer_readers _ _ _ _ WHO NC S) as E. constructor; auto; rewrite E; intros.
      * apply OTHER; auto. discriminate.
      * rewrite waits_other; auto.
      * rewrite other_places, other_shown, waits_other; auto.
Qed.

Lemma j_run_from : forall ops t tr t' tr', jinv t tr -> jrun t ops = (t', tr') -> jinv t' (tr ++ tr').
Proof.
  induction ops as [|o ops IH]; cbn; intros t tr t' tr' J H.
  - injection H as <- <-. now rewrite app_nil_r.
  - destruct (jstep t o) as [t1 out] eqn:S. destruct (jrun t1 ops) as [t2 tr2] eqn:E. injection H as <- <-.
    pose proof (j_step _ _ _ _ _ J S) as J1. specialize (IH _ _ _ _ J1 E). now rewrite <- app_assoc in IH.
Qed.
Lemma j_run : forall ops t tr, jrun jt_init ops = (t, tr) -> jinv t tr.
Proof. intros. apply (j_run_from ops jt_init [] t tr j_init H). Qed.

(** Nobody goes back, nothing is left out inside a group, and every frame is the one written there. *)
Lemma reader_order : forall ops t tr r, jrun jt_init ops = (t, tr) ->
  StronglySorted before (places r tr) /\ Forall (fun p => In (fst p) (added tr)) (places r tr) /\
  (forall id k d, In ((id, k), d) (shown r tr) -> nth_error (written tr id) k = Some d) /\
  (forall id k d, In ((id, S k), d) (shown r tr) -> exists d', In ((id, k), d') (shown r tr)).
Proof.
  intros ops t tr r H. apply j_run in H. destruct (nth_error (jt_readers t) r) as [q|] eqn:E.
  - pose proof (i_r _ _ H _ _ E) as R. split; [apply R|]. split; [|split; [|apply R]].
    + destruct (r_mark _ _ _ _ R) as (m & _ & M & _). eapply Forall_impl; [|exact M]. intros p X. eapply early_added; [exact (i_w _ _ H)|exact X].
    + intros id k d X. now apply (r_true _ _ _ _ R) in X.
  - destruct (i_none _ _ H _ E) as (A & B & _). rewrite A, B. split; [constructor|]. split; [constructor|]. split; intros ? ? ? [].
Qed.

(** * A reader that is up to date *)

Definition recent (n : nat) (tr : jtrace) : Prop :=
  exists a x b, tr = a ++ x :: b /\ In (JConsume, JReaderIs n) a /\ (exists i, snd x = JNew i) /\ ~ In (JTickG n) (map fst b).

Definition uside (t : jtrack) (tr : jtrace) (n : nat) (r : jreader) : Prop :=
  jt_end t = None -> jr_left r = false ->
  exists m, (m = O \/ exists id i, jr_cur r = Some (id, i) /\ nth_error (jt_vals t) m = Some (Some id)) /\
    match jr_group r with
    | GWait k => m = k /\ (k = jt_epoch t \/ S k = jt_epoch t /\ recent n tr)
    | GGot (Some id) => exists j, nth_error (jt_vals t) j = Some (Some id) /\ jr_epoch r = S j /\ (j <= jt_epoch t)%nat
    | _ => False
    end.

Lemma recent_snoc : forall n tr e, recent n tr -> fst e <> JTickG n -> recent n (tr ++ [e]).
Proof.
  intros n tr e (a & x & b & -> & A & B & C) H. exists a, x, (b ++ [e]). split; [now rewrite <- app_assoc|]. split; auto. split; auto.
  rewrite map_app, in_app_iff. intros [K|[K|[]]]; auto.
Qed.

Lemma unhurried_prefix : forall n tr e, unhurried n (tr ++ [e]) -> unhurried n tr.
Proof.
  intros n tr e U a x b y c E. apply (U a x b y (c ++ [e])). rewrite E.
  now rewrite <- app_assoc, <- app_comm_cons, <- app_assoc, <- app_comm_cons.
Qed.

Lemma hurried : forall n tr e i, unhurried n (tr ++ [e]) -> recent n tr -> snd e = JNew i -> False.
Proof.
  intros n tr e i U (a & x & b & -> & A & B & C) H. apply C. apply (U a x b e []); eauto. now rewrite <- app_assoc.
Qed.

Lemma last_some : forall t tr, wside t tr -> jt_end t = None ->
  match jt_epoch t with
  | O => last (jt_vals t) None = None
  | S _ => exists id, last (jt_vals t) None = Some id /\ nth_error (jt_vals t) (jt_epoch t) = Some (Some id)
  end.
Proof.
  intros t tr W E. pose proof (w_vals _ _ W) as V. rewrite E, app_nil_r in V.
  assert (L : nth_error (jt_vals t) (jt_epoch t) = Some (last (jt_vals t) None)).
  { unfold jt_epoch. apply last_nth. rewrite V. discriminate. }
  destruct (jt_epoch t) eqn:Q.
  - rewrite V in L. cbn [nth_error] in L. rewrite V. congruence.
  - rewrite L. rewrite V in L at 1. cbn in L. rewrite nth_error_map in L.
    destruct (nth_error (added tr) n); cbn in L; [|discriminate]. injection L as L. rewrite <- L. eauto.
Qed.

(** Going on from group [j]. *)
Lemma u_start : forall t tr n r id j e g cur f c k i, wside t tr -> nth_error (jt_vals t) j = Some (Some id) -> (j <= jt_epoch t)%nat ->
  start_next t (S j) = (e, g) -> cur = Some (id, i) -> uside t tr n (JReader e (jr_left r) g cur k f c).
Proof.
  intros t tr n r id j e g cur f c k i W V L S C E LF. cbn in *.
  pose proof (last_some _ _ W E) as LS. unfold start_next in S. destruct (Nat.leb (Datatypes.S j) (jt_epoch t)) eqn:Q.
  - injection S as <- <-. apply Nat.leb_le in Q. destruct (jt_epoch t) eqn:J; [lia|]. destruct LS as (id' & LS & LN).
    rewrite LS. exists O. split; auto. exists (Datatypes.S n0). auto.
  - apply Nat.leb_gt in Q. injection S as <- <-. assert (j = jt_epoch t) by lia. subst j.
    exists (jt_epoch t). split; [right; eauto|]. auto.
Qed.

Lemma u_quiet : forall t tr n r e t', uside t tr n r -> jt_vals t' = jt_vals t -> (jt_end t' = None -> jt_end t = None) ->
  fst e <> JTickG n -> uside t' (tr ++ [e]) n r.
Proof.
  intros t tr n r e t' U V E H E' L. specialize (U (E E') L).
  assert (J : jt_epoch t' = jt_epoch t) by (unfold jt_epoch; now rewrite V). rewrite V, J.
  destruct U as (m & A & B). exists m. split; auto.
  destruct (jr_group r) as [k|[id|]|]; auto. destruct B as [B [C|[C D]]]; split; auto. right. split; auto. apply recent_snoc; auto.
Qed.

Lemma u_writer : forall t tr n r o t' out, jinv t tr -> uside t tr n r -> who o = None -> jstep t o = (t', out) ->
  In (JConsume, JReaderIs n) tr -> unhurried n (tr ++ [(o, out)]) -> uside t' (tr ++ [(o, out)]) n r.
Proof.
  intros t tr n r o t' out J U H S C UH.
  assert (Q : forall o out, o <> JTickG n -> uside t (tr ++ [(o, out)]) n r).
  { intros. eapply u_quiet; eauto. }
  assert (QA : forall o t' out id, o <> JTickG n -> unhurried n (tr ++ [(o, out)]) -> add_group t id = (t', out) ->
    uside t' (tr ++ [(o, out)]) n r).
  { clear S UH. intros o' t0 out0 id N UH A. unfold add_group in A. destruct (jt_end t) eqn:E; injection A as <- <-.
    - eapply u_quiet; eauto. cbn. discriminate.
    - intros E' L. cbn [jt_end] in E'. destruct (U E L) as (m & A & B).
      assert (EP : jt_epoch (JTrack (id + 1) (jt_vals t ++ [Some id]) None (jt_groups t ++ [JGroup id [] None]) (jt_readers t)) = Datatypes.S (jt_epoch t)).
      { unfold jt_epoch. cbn. rewrite app_length. rewrite (vals_len _ _ (i_w _ _ J)). cbn. lia. }
      cbn [jt_vals]. rewrite EP. exists m.
      assert (NE : forall j x, nth_error (jt_vals t) j = Some x -> nth_error (jt_vals t ++ [Some id]) j = Some x).
      { intros j x X. rewrite nth_error_app1; auto. apply nth_error_Some. congruence. }
      split; [destruct A as [A|(i & i' & A & X)]; [auto|right; eauto]|].
      destruct (jr_group r) as [k|[id'|]|]; auto.
      + destruct B as [-> [->|[_ R]]].
        * split; auto. right. split; auto. exists tr, (o', JNew id), []. split; auto. split; auto. split; [cbn; eauto|auto].
        * exfalso. eapply hurried; eauto. reflexivity.
      + destruct B as (j & B1 & B2 & B3). exists j. auto. }
  destruct o; cbn in H; try discriminate; cbn in S.
  - eapply QA; eauto. discriminate.
  - destruct (id <? jt_next t); [injection S as <- <-; apply Q; discriminate|]. eapply QA; eauto. discriminate.
  - destruct (jt_end t) eqn:E; injection S as <- <-; [apply Q; discriminate|]. intros X. discriminate.
  - destruct (jfind t id); [|injection S as <- <-; apply Q; discriminate].
    destruct (jg_end j); injection S as <- <-; [apply Q; discriminate|]. eapply u_quiet; eauto. discriminate.
  - destruct (jfind t id); [|injection S as <- <-; apply Q; discriminate].
    destruct (jg_end j); injection S as <- <-; [apply Q; discriminate|]. eapply u_quiet; eauto. discriminate.
  - injection S as <- <-. eapply u_quiet; eauto. discriminate.
Qed.

Lemma u_new : forall t tr n, wside t tr -> uside t tr n (new_reader t).
Proof.
  intros t tr n W E L. pose proof (last_some _ _ W E) as LS. unfold new_reader, start_next in *. cbn [Nat.leb] in *.
  exists O. split; auto. cbn. destruct (jt_epoch t) eqn:J.
  - rewrite LS. auto.
  - destruct LS as (id & LS & LN). rewrite LS. exists (S n0). auto.
Qed.

(** What stays the same of a reader, or has moved on by [start_next]. *)
Lemma u_same : forall t tr n r r', uside t tr n r -> jr_left r' = jr_left r -> jr_group r' = jr_group r -> jr_epoch r' = jr_epoch r ->
  (forall id i, jr_cur r = Some (id, i) -> exists i', jr_cur r' = Some (id, i')) -> uside t tr n r'.
Proof.
  intros t tr n r r' U A B C D E L. rewrite A in L. destruct (U E L) as (m & X & Y). exists m. rewrite B, C. split; auto.
  destruct X as [X|(id & i & X & Z)]; auto. right. destruct (D _ _ X) as [i' Q]. eauto.
Qed.

Lemma u_call : forall t tr n r b r' out, wside t tr -> rside t tr n r -> uside t tr n r -> tick_call t r b = Some (r', out) ->
  uside t tr n r'.
Proof.
  intros t tr n r b r' out W R U T.
  assert (SET : forall c, uside t tr n (set_call r c)).
  { intros c. eapply u_same; eauto. }
  assert (NONE : jr_left r = false -> jr_group r = GGot None \/ jr_group r = GFail -> jt_end t <> None) by (apply R).
  assert (TAKE : forall id, jr_left r = false -> jr_group r = GGot (Some id) -> jt_end t = None -> uside t tr n (take_group t r id)).
  { intros id L G E. destruct (U E L) as (m & X & Y). rewrite G in Y. destruct Y as (j & Y1 & Y2 & Y3).
    unfold take_group. destruct (start_next t (jr_epoch r)) as [e g] eqn:S. rewrite Y2 in S.
    destruct (peek_frame t (Some (id, O))) as [f cur] eqn:P.
    destruct (match jr_cur r with Some (c, _) => id <=? c | None => false end) eqn:Q.
    - exfalso. destruct (jr_cur r) as [[c i]|] eqn:K; [|discriminate]. apply N.leb_le in Q.
      destruct (r_mark _ _ _ _ R) as (m' & M1 & M2 & M3 & M4). rewrite G in M4. destruct M4 as (j' & J & V).
      pose proof (later t tr m' j' c id W (M3 _ _ K) ltac:(lia) V). lia.
    - assert (A : In id (added tr)) by (apply (in_vals _ _ _ W); eapply nth_error_In; eauto).
      destruct (peek_ok _ _ _ _ _ _ W A (Nat.le_0_l _) P) as (_ & [C|C] & _); eapply u_start; eauto. }
  assert (FRAME : forall d, uside t tr n (fst (finish_frame t r d))).
  { intros d. unfold finish_frame. destruct (jr_cur r) as [[id i]|] eqn:C.
    - destruct (peek_frame t (Some (id, i))) as [f cur] eqn:P. cbn. eapply u_same; eauto. cbn. intros id' i' X.
      rewrite C in X. injection X as <- <-. unfold peek_frame in P. destruct (jfind t id); [|injection P as <- <-; eauto].
      destruct (nth_error (jg_frames j) i); [injection P as <- <-; eauto|]. destruct (jg_end j) as [[]|]; injection P as <- <-; eauto.
    - eapply u_same; eauto. cbn. intros. congruence. }
  intros E L. pose proof (call_left _ _ _ _ R) as LF. unfold tick_call in T.
  assert (RG : forall x, jr_left r = false -> race_group t r = Some x -> uside t tr n (fst x)).
  { intros x L0 H. unfold race_group in H. destruct (jr_group r) as [k|[id|]|] eqn:G; try discriminate; injection H as <-; cbn; auto. }
  assert (RF : forall x, race_frame t r = Some x -> uside t tr n (fst x)).
  { intros x H. unfold race_frame in H. destruct (jr_frame r) as [| |[d|]|] eqn:F; try discriminate; injection H as <-; auto; cbn; auto. }
  destruct (jr_call r) eqn:CALL; [discriminate| | | | ]; specialize (LF ltac:(discriminate)).
  - destruct (jr_group r) as [k|[id|]|] eqn:G; try discriminate; apply some_inj in T.
    + destruct (U E LF) as (m & X & Y). rewrite G in Y. destruct Y as (j & Y1 & Y2 & Y3).
      unfold finish_group in T. destruct (start_next t (jr_epoch r)) as [e g] eqn:S. rewrite Y2 in S.
      destruct (peek_frame t (Some (id, O))) as [f cur] eqn:P. injection T as <- <-.
      assert (A : In id (added tr)) by (apply (in_vals _ _ _ W); eapply nth_error_In; eauto).
      destruct (peek_ok _ _ _ _ _ _ W A (Nat.le_0_l _) P) as (_ & [C|C] & _);
        (apply (u_start t tr n r id j e g cur f CNone O _ W Y1 Y3 S C E L)).
    + exfalso. apply (NONE LF (or_introl eq_refl)). auto.
    + exfalso. apply (NONE LF (or_intror eq_refl)). auto.
  - assert (Z : race_frame t r = Some (r', out) \/ race_group t r = Some (r', out)).
    { destruct (jr_frame r); auto; destruct (race_frame t r), (race_group t r), b; auto. }
    destruct Z as [Z|Z]; [apply (RF _ Z E L) | apply (RG _ LF Z E L)].
  - destruct (jr_group r) as [k|[id|]|] eqn:G; try discriminate; apply some_inj in T.
    + injection T as <- <-. apply (TAKE id LF eq_refl E E L).
    + exfalso. apply (NONE LF (or_introl eq_refl)). auto.
    + exfalso. apply (NONE LF (or_intror eq_refl)). auto.
  - destruct (jr_frame r) as [| |[d|]|] eqn:F; try discriminate; apply some_inj in T.
    + injection T as <- <-. apply (SET CNone E L).
    + assert (r' = fst (finish_frame t r d)) by (now rewrite T). subst r'. apply (FRAME d E L).
    + injection T as <- <-. apply (SET CNone E L).
    + injection T as <- <-. apply (SET CNone E L).
Qed.

Lemma u_tick_g : forall t tr tr' n r k e g, wside t tr -> uside t tr n r -> jr_group r = GWait k -> tick_next t k = Some (e, g) ->
  uside t tr' n (JReader e (jr_left r) g (jr_cur r) (jr_count r) (jr_frame r) (jr_call r)).
Proof.
  intros t tr tr' n r k e g W U G T E L. cbn in L. destruct (U E L) as (m & X & Y). rewrite G in Y. destruct Y as [-> Y].
  unfold tick_next in T. rewrite E in T. destruct (Nat.ltb k (jt_epoch t)) eqn:Q; [|discriminate]. apply Nat.ltb_lt in Q.
  destruct Y as [Y|[Y _]]; [lia|]. injection T as <- <-. cbn.
  pose proof (last_some _ _ W E) as LS. rewrite <- Y in *. destruct LS as (id & LS & LN).
  exists k. split; auto. rewrite (nth_error_nth _ _ None LN). exists (S k). auto.
Qed.

Lemma peek_id : forall t id i f cur, peek_frame t (Some (id, i)) = (f, cur) -> exists i', cur = Some (id, i').
Proof.
  intros t id i f cur P. unfold peek_frame in P. destruct (jfind t id); [|injection P as <- <-; eauto].
  destruct (nth_error (jg_frames j) i); [injection P as <- <-; eauto|]. destruct (jg_end j) as [[]|]; injection P as <- <-; eauto.
Qed.

Lemma u_idle_g : forall t tr n q, uside t tr n q -> (forall k, jr_group q = GWait k -> tick_next t k = None) ->
  uside t (tr ++ [(JTickG n, JIdle)]) n q.
Proof.
  intros t tr n q UQ X E1 L1. destruct (UQ E1 L1) as (m0 & A & B). exists m0. split; auto.
  destruct (jr_group q) as [k|[id|]|] eqn:GR; auto. destruct B as [-> B]. split; auto. left.
  destruct B as [B|[B _]]; auto. exfalso. specialize (X _ eq_refl). unfold tick_next in X.
  destruct (Nat.ltb k (jt_epoch t)) eqn:Q; [discriminate|]. apply Nat.ltb_ge in Q. lia.
Qed.

(** Only the state the watch is in counts. *)
Lemma u_set : forall t tr n r m x, uside t tr n r -> uside (set_reader t m x) tr n r.
Proof. intros t tr n r m x U E L. exact (U E L). Qed.

Lemma u_own : forall t tr n q o t' out, jinv t tr -> nth_error (jt_readers t) n = Some q -> uside t tr n q -> who o = Some n ->
  jstep t o = (t', out) -> forall r, nth_error (jt_readers t') n = Some r -> uside t' (tr ++ [(o, out)]) n r.
Proof.
  intros t tr n q o t' out J NE U WHO S r H. pose proof (i_w _ _ J) as W. pose proof (i_r _ _ J _ _ NE) as RQ.
  assert (STAY : forall e, fst e <> JTickG n -> nth_error (jt_readers t) n = Some r -> uside t (tr ++ [e]) n r).
  { intros e N K. assert (r = q) by congruence. subst r. eapply u_quiet; eauto. }
  assert (MOVE : forall q' e, fst e <> JTickG n -> uside t tr n q' -> nth_error (jset (jt_readers t) n q') n = Some r ->
    uside (set_reader t n q') (tr ++ [e]) n r).
  { intros q' e N X K. rewrite (jset_same _ _ _ _ _ NE) in K. injection K as <-. apply u_set. eapply u_quiet; eauto. }
  destruct o; cbn in WHO; try discriminate; injection WHO as ->; cbn [jstep] in S; rewrite NE in S.
  - destruct (jr_call q) eqn:CALL; try (injection S as <- <-; apply STAY; [discriminate|auto]; fail).
    destruct (jr_left q) eqn:L; injection S as <- <-; [apply STAY; [discriminate|auto]|].
    apply MOVE; [discriminate| |auto]. eapply u_same; eauto.
  - destruct (jr_call q) eqn:CALL; try (injection S as <- <-; apply STAY; [discriminate|auto]; fail).
    destruct (jr_left q) eqn:L; injection S as <- <-; [apply STAY; [discriminate|auto]|].
    apply MOVE; [discriminate| |auto]. eapply u_same; eauto.
  - destruct (jr_group q) as [k|g|] eqn:G.
    2,3: injection S as <- <-; assert (r = q) by congruence; subst r; apply u_idle_g; auto; intros; congruence.
    destruct (tick_next t k) as [[e g]|] eqn:T; injection S as <- <-.
    + cbn [set_reader jt_readers] in H. rewrite (jset_same _ _ _ _ _ NE) in H. injection H as <-.
      apply u_set. eapply u_tick_g; eauto.
    + assert (r = q) by congruence. subst r. apply u_idle_g; auto. intros k' E. congruence.
  - destruct (jr_frame q) eqn:F; try (injection S as <- <-; apply STAY; [discriminate|auto]; fail).
    destruct (peek_frame t (jr_cur q)) as [f cur] eqn:P.
    assert (X : uside t tr n (JReader (jr_epoch q) (jr_left q) (jr_group q) cur (jr_count q) f (jr_call q))).
    { eapply u_same; eauto. cbn. intros id i C. rewrite C in P. eapply peek_id; eauto. }
    destruct f; injection S as <- <-; try (apply STAY; [discriminate|auto]; fail); (apply MOVE; [discriminate|auto|auto]).
  - destruct (tick_call t q group) as [[q' out']|] eqn:T; injection S as <- <-; [|apply STAY; [discriminate|auto]].
    apply MOVE; [discriminate| |auto]. eapply u_call; eauto.
  - destruct (leave q group) as [q' out'] eqn:T. injection S as <- <-. apply MOVE; [discriminate| |auto].
    unfold leave in T. injection T as <- _. intros _ L. discriminate.
Qed.

Lemma reader_track : forall t o m t' out, who o = Some m -> jstep t o = (t', out) ->
  jt_vals t' = jt_vals t /\ jt_end t' = jt_end t /\ forall n, n <> m -> nth_error (jt_readers t') n = nth_error (jt_readers t) n.
Proof.
  intros t o m t' out WHO S. assert (Z : forall x, t' = set_reader t m x -> jt_vals t' = jt_vals t /\ jt_end t' = jt_end t /\
    forall n, n <> m -> nth_error (jt_readers t') n = nth_error (jt_readers t) n).
  { intros x ->. cbn. split; auto. split; auto. intros n N. apply jset_other. auto. }
  destruct (nth_error (jt_readers t) m) as [q|] eqn:NE.
  2: destruct (nobody _ _ _ _ _ WHO NE S) as [-> _]; auto.
  destruct o; cbn in WHO; try discriminate; injection WHO as ->; cbn [jstep] in S; rewrite NE in S;
    repeat match type of S with
    | context [let (_, _) := ?x in _] => destruct x
    | context [match ?x with _ => _ end] => destruct x
    end; injection S as <- <-; eauto.
Qed.

Lemma u_step : forall t tr n o t' out, jinv t tr -> (forall r, nth_error (jt_readers t) n = Some r -> uside t tr n r) ->
  (forall r, nth_error (jt_readers t) n = Some r -> In (JConsume, JReaderIs n) tr) ->
  unhurried n (tr ++ [(o, out)]) -> jstep t o = (t', out) ->
  (forall r, nth_error (jt_readers t') n = Some r -> uside t' (tr ++ [(o, out)]) n r) /\
  (forall r, nth_error (jt_readers t') n = Some r -> In (JConsume, JReaderIs n) (tr ++ [(o, out)])).
Proof.
  intros t tr n o t' out J U C UH S. pose proof (i_w _ _ J) as W.
  destruct (who o) as [m|] eqn:WHO.
  - destruct (reader_track _ _ _ _ _ WHO S) as (V & E & O).
    destruct (Nat.eq_dec n m) as [->|NM].
    + destruct (nth_error (jt_readers t) m) as [q|] eqn:NE.
      * split; intros r H; [eapply u_own; eauto|]. apply in_or_app. left. eapply C. reflexivity.
      * destruct (nobody _ _ _ _ _ WHO NE S) as [-> ->]. split; intros r H; congruence.
    + split; intros r H; rewrite (O _ NM) in H.
      * eapply u_quiet; eauto; [congruence|]. cbn. intros ->. cbn in WHO. congruence.
      * apply in_or_app. eauto.
  - assert (DEC : o = JConsume \/ o <> JConsume) by (destruct o; auto; right; discriminate).
    destruct DEC as [->|NC].
    + assert (D : forall r, nth_error (jt_readers t') n = Some r ->
        nth_error (jt_readers t) n = Some r \/ n = length (jt_readers t) /\ r = new_reader t).
      { intros r H. cbn in S. injection S as <- <-. cbn in H. destruct (Nat.lt_ge_cases n (length (jt_readers t))).
        - rewrite nth_error_app1 in H by auto. auto.
        - right. rewrite nth_error_app2 in H by auto.
          destruct (n - length (jt_readers t))%nat as [|k] eqn:K; [|destruct k; discriminate].
          injection H as <-. split; auto. lia. }
      split; intros r H; destruct (D _ H) as [K|[-> ->]].
      * eapply u_writer; eauto.
      * cbn in S. injection S as <- <-. eapply u_quiet; [apply u_new; eauto| | |]; auto. discriminate.
      * apply in_or_app. eauto.
      * cbn in S. injection S as <- <-. apply in_or_app. right. cbn. auto.
    + pose proof (writer_readers _ _ _ _ WHO NC S) as E.
      split; intros r H; rewrite E in H; [eapply u_writer; eauto | apply in_or_app; eauto].
Qed.

Lemma unhurried_app : forall n b a, unhurried n (a ++ b) -> unhurried n a.
Proof.
  intros n b. induction b as [|e b IH] using rev_ind; intros a U; [now rewrite app_nil_r in U|].
  rewrite app_assoc in U. apply unhurried_prefix in U. auto.
Qed.

Lemma u_run_from : forall ops t tr t' tr' n, jinv t tr ->
  (forall r, nth_error (jt_readers t) n = Some r -> uside t tr n r) ->
  (forall r, nth_error (jt_readers t) n = Some r -> In (JConsume, JReaderIs n) tr) ->
  unhurried n (tr ++ tr') -> jrun t ops = (t', tr') ->
  forall r, nth_error (jt_readers t') n = Some r -> uside t' (tr ++ tr') n r.
Proof.
  induction ops as [|o ops IH]; cbn; intros t tr t' tr' n J U C UH H.
  - injection H as <- <-. rewrite app_nil_r. auto.
  - destruct (jstep t o) as [t1 out] eqn:S. destruct (jrun t1 ops) as [t2 tr2] eqn:E. injection H as <- <-.
    assert (EQ : tr ++ (o, out) :: tr2 = (tr ++ [(o, out)]) ++ tr2) by (now rewrite <- app_assoc).
    rewrite EQ in *. destruct (u_step _ _ _ _ _ _ J U C (unhurried_app _ _ _ UH) S) as [U1 C1].
    eapply IH; eauto. eapply j_step; eauto.
Qed.
Lemma u_run : forall ops t tr n r, jrun jt_init ops = (t, tr) -> unhurried n tr -> nth_error (jt_readers t) n = Some r -> uside t tr n r.
Proof.
  intros ops t tr n r H UH NE. refine (u_run_from ops jt_init [] t tr n j_init _ _ UH H r NE); cbn; intros x X; destruct n; discriminate.
Qed.

(** At rest, waiting for a frame, with the track still going: the current group is the newest one and read to its end so far. *)
Lemma at_rest : forall ops t tr n, jrun jt_init ops = (t, tr) -> unhurried n tr -> waits n tr = true -> rests t n ->
  (forall e, ~ In (JEnd e, JDone) tr) ->
  forall id, last (map Some (added tr)) None = Some id ->
  forall k, (k < length (written tr id))%nat -> exists d, In ((id, k), d) (shown n tr).
Proof.
  intros ops t tr n H UH WT (RG & RF & RC) NE id LAST k K. pose proof (j_run _ _ _ H) as J. pose proof (i_w _ _ J) as W.
  destruct (nth_error (jt_readers t) n) as [r|] eqn:N.
  2: { destruct (i_none _ _ J _ N) as (_ & _ & X). congruence. }
  pose proof (i_r _ _ J _ _ N) as R. pose proof (u_run _ _ _ _ _ H UH N) as U.
  rewrite (i_waits _ _ J _ _ N) in WT.
  assert (E : jt_end t = None).
  { destruct (jt_end t) eqn:X; auto. destruct (w_end _ _ W _ X) as [e' Y]. destruct (NE _ Y). }
  assert (L : jr_left r = false) by (apply (call_left _ _ _ _ R); intros X; rewrite X in WT; discriminate).
  destruct (U E L) as (m & A & B).
  assert (G : exists k, jr_group r = GWait k /\ (k >= jt_epoch t)%nat).
  { cbn in RG. rewrite N in RG. destruct (jr_group r) as [k'|[id'|]|] eqn:G; [| |destruct B|destruct B].
    - exists k'. split; auto. unfold tick_next in RG. destruct (Nat.ltb k' (jt_epoch t)) eqn:Q; [cbn in RG; discriminate|].
      now apply Nat.ltb_ge in Q.
    - exfalso. specialize (RC true). cbn in RC. rewrite N in RC. unfold tick_call in RC.
      destruct (jr_call r) eqn:CALL; try discriminate.
      + unfold race_frame, race_group in RC. rewrite G in RC.
        destruct (jr_frame r) as [| |[d|]|]; cbn in RC; discriminate.
      + rewrite G in RC. cbn in RC. discriminate.
      + pose proof (r_fwait _ _ _ _ R CALL). congruence. }
  destruct G as (k' & G & Q). rewrite G in B. destruct B as [-> [B|[B _]]]; [|lia]. subst k'.
  pose proof (last_some _ _ W E) as LS.
  assert (V : jt_vals t = None :: map Some (added tr)) by (rewrite (w_vals _ _ W), E; now rewrite app_nil_r).
  assert (NZ : added tr <> []) by (intros X; rewrite X in LAST; discriminate).
  assert (LV : last (jt_vals t) None = Some id).
  { rewrite V. cbn. destruct (map Some (added tr)) eqn:M; [destruct (added tr); [easy|discriminate]|]. exact LAST. }
  destruct (jt_epoch t) eqn:EP; [congruence|]. destruct LS as (id' & LS & LN).
  assert (id' = id) by congruence. subst id'.
  destruct A as [A|(id' & i & C & A)]; [discriminate|]. assert (id' = id) by congruence. subst id'.
  assert (CNT : jr_count r = length (written tr id)).
  { pose proof (r_frame _ _ _ _ R) as F. specialize (RC true). cbn in RC. rewrite N in RC. unfold tick_call in RC.
    cbn in RF. rewrite N in RF.
    destruct (jr_frame r) as [| |[d|]|] eqn:FR; cbn in F.
    - congruence.
    - destruct F as (id' & C' & F). rewrite C in C'. injection C' as <- ->.
      rewrite C in RF. cbn in RF.
      assert (IN : In id (map jg_id (jt_groups t))).
      { rewrite (w_ids _ _ W). apply (in_vals _ _ _ W). eapply nth_error_In; eauto. }
      destruct (find_known _ _ IN) as [g GF]. rewrite GF in RF.
      destruct (find_in _ _ _ GF) as [GI GID]. pose proof (w_frames _ _ W _ GI) as FR'. rewrite GID in FR'.
      destruct (nth_error (jg_frames g) (jr_count r)) eqn:NF; [cbn in RF; discriminate|].
      apply nth_error_None in NF. rewrite FR' in NF. lia.
    - exfalso. destruct (jr_call r) eqn:CALL; try discriminate.
      + unfold race_frame, race_group in RC. rewrite FR, G in RC. unfold finish_frame in RC. rewrite C in RC.
        destruct (peek_frame t (Some (id, i))). cbn in RC. discriminate.
      + destruct (r_gwait _ _ _ _ R CALL) as [_ X]. apply (X d). auto.
      + pose proof (r_fwait _ _ _ _ R CALL). congruence.
    - destruct F as (id' & g & C' & F & _). rewrite C in C'. injection C' as <- _. auto.
    - destruct F as (id' & g & C' & F & _). rewrite C in C'. injection C' as <- _. auto. }
  apply (r_cont _ _ _ _ R id i k C). lia.
Qed.

(** * The end *)

(** A reader used for frames only has a current group once it was given anything. *)
Definition vside (tr : jtrace) (n : nat) (r : jreader) : Prop :=
  (forall out, ~ In (JNextGroup n, out) tr) -> jr_left r = false ->
  jr_call r <> CGroup /\ (jr_cur r = None -> places n tr = []).

Lemma v_more : forall tr n r e, places n (tr ++ [e]) = places n tr -> vside tr n r -> vside (tr ++ [e]) n r.
Proof.
  intros tr n r e P V X L. destruct (V (fun out K => X out (in_or_app _ _ _ (or_introl K))) L) as [A B].
  split; auto. intros C. rewrite P. auto.
Qed.

Lemma v_own : forall t tr n q o t' out, nth_error (jt_readers t) n = Some q -> vside tr n q -> who o = Some n ->
  jstep t o = (t', out) -> forall r, nth_error (jt_readers t') n = Some r -> vside (tr ++ [(o, out)]) n r.
Proof.
  intros t tr n q o t' out NE V WHO S r H.
  assert (SD : silent JDone) by (split; discriminate).
  assert (SO : silent JOver) by (split; discriminate).
  assert (SI : silent JIdle) by (split; discriminate).
  assert (STAY : silent out -> nth_error (jt_readers t) n = Some r -> vside (tr ++ [(o, out)]) n r).
  { intros SL K. assert (r = q) by congruence. subst r. apply v_more; auto. apply silent_places; auto. }
  destruct o; cbn in WHO; try discriminate; injection WHO as ->; cbn [jstep] in S; rewrite NE in S.
  - intros X. exfalso. apply (X out). apply in_or_app. right. cbn. auto.
  - destruct (jr_call q) eqn:CALL; try (injection S as <- <-; apply STAY; auto; fail).
    destruct (jr_left q) eqn:L; injection S as <- <-; [apply STAY; auto|].
    cbn in H. rewrite (jset_same _ _ _ _ _ NE) in H. injection H as <-.
    apply v_more; [apply silent_places; auto|]. intros X L'. destruct (V X L). cbn. split; auto. discriminate.
  - destruct (jr_group q) as [k|g|] eqn:G; try (injection S as <- <-; apply STAY; auto; fail).
    destruct (tick_next t k) as [[e g]|] eqn:T; injection S as <- <-; [|apply STAY; auto].
    cbn in H. rewrite (jset_same _ _ _ _ _ NE) in H. injection H as <-.
    apply v_more; [apply silent_places; auto|]. intros X L'. exact (V X L').
  - destruct (jr_frame q) eqn:F; try (injection S as <- <-; apply STAY; auto; fail).
    destruct (peek_frame t (jr_cur q)) as [f cur] eqn:P.
    assert (X : vside tr n (JReader (jr_epoch q) (jr_left q) (jr_group q) cur (jr_count q) f (jr_call q))).
    { intros X L'. destruct (V X L') as [A B]. split; auto. cbn. intros ->. apply B.
      destruct (jr_cur q) as [[id i]|]; auto. apply peek_id in P. destruct P. discriminate. }
    destruct f; injection S as <- <-; try (apply STAY; auto; fail);
      (cbn in H; rewrite (jset_same _ _ _ _ _ NE) in H; injection H as <-; apply v_more; [apply silent_places; auto|auto]).
  - destruct (tick_call t q group) as [[q' out']|] eqn:T; injection S as <- <-; [|apply STAY; auto].
    cbn in H. rewrite (jset_same _ _ _ _ _ NE) in H. injection H as <-.
    assert (SET : forall c, c <> CGroup -> forall out, silent out -> vside (tr ++ [(JTickC n group, out)]) n (set_call q c)).
    { intros c N o2 SL. apply v_more; [apply silent_places; auto|]. intros X L'. destruct (V X L'). cbn. auto. }
    assert (TAKE : forall id out, vside (tr ++ [(JTickC n group, out)]) n (take_group t q id)).
    { intros id o2 X L'. unfold take_group in *. destruct (start_next t (jr_epoch q)) as [e g].
      destruct (peek_frame t (Some (id, O))) as [f cur] eqn:P. apply peek_id in P. destruct P as [i' ->].
      destruct (jr_cur q) as [[c i]|] eqn:C; [destruct (id <=? c)|]; cbn; split; discriminate. }
    assert (FR : forall d q' out, finish_frame t q d = (q', out) -> vside (tr ++ [(JTickC n group, out)]) n q').
    { clear T STAY. clear q' out'. intros d q' o2 T. unfold finish_frame in T. destruct (jr_cur q) as [[id i]|] eqn:C.
      - destruct (peek_frame t (Some (id, i))) as [f cur] eqn:P. apply peek_id in P. destruct P as [i' ->]. injection T as <- <-.
        intros X L'. cbn. split; discriminate.
      - injection T as <- <-. apply v_more; [apply silent_places; split; discriminate|]. intros X L'. destruct (V X L') as [A B]. cbn. split; [discriminate|auto]. }
    assert (SF : silent JFailed) by (split; discriminate).
    assert (CN : forall c, c = CRace \/ c = CNone \/ c = CGroupWait \/ c = CFrameWait -> c <> CGroup).
    { intros c [?|[?|[?|?]]]; congruence. }
    unfold tick_call in T.
    destruct (jr_call q) eqn:CALL; [discriminate| | | | ].
    + intros X. assert (LQ : jr_left q' = jr_left q).
      { destruct (jr_group q) as [k|g|]; try discriminate; apply some_inj in T; [|injection T as <- <-; auto].
        unfold finish_group in T. destruct (start_next t (jr_epoch q)), (peek_frame t match g with Some id => Some (id, O) | None => None end).
        injection T as <- <-. auto. }
      intros L. exfalso. rewrite LQ in L. destruct (V (fun o2 K => X o2 (in_or_app _ _ _ (or_introl K))) L) as [A _]. congruence.
    + assert (Z : race_frame t q = Some (q', out') \/ race_group t q = Some (q', out')).
      { destruct (jr_frame q); auto; destruct (race_frame t q), (race_group t q), group; auto. }
      unfold race_frame, race_group in Z. destruct Z as [Z|Z].
      * destruct (jr_frame q) as [| |[d|]|]; try discriminate; apply some_inj in Z; try (eapply FR; eauto; fail);
          injection Z as <- <-; apply SET; auto.
      * destruct (jr_group q) as [k|[id|]|]; try discriminate; apply some_inj in Z; injection Z as <- <-; try apply TAKE; apply SET; auto.
    + destruct (jr_group q) as [k|[id|]|]; try discriminate; apply some_inj in T; injection T as <- <-; try apply TAKE; apply SET; auto.
    + destruct (jr_frame q) as [| |[d|]|]; try discriminate; apply some_inj in T; try (eapply FR; eauto; fail);
        injection T as <- <-; apply SET; auto.
  - destruct (leave q group) as [q' out'] eqn:T. injection S as <- <-. unfold leave in T. injection T as <- _.
    cbn in H. rewrite (jset_same _ _ _ _ _ NE) in H. injection H as <-. intros _ L. discriminate.
Qed.

Lemma v_step : forall t tr n o t' out, jinv t tr -> (forall r, nth_error (jt_readers t) n = Some r -> vside tr n r) ->
  jstep t o = (t', out) -> forall r, nth_error (jt_readers t') n = Some r -> vside (tr ++ [(o, out)]) n r.
Proof.
  intros t tr n o t' out J V S r H.
  destruct (who o) as [m|] eqn:WHO.
  - destruct (reader_track _ _ _ _ _ WHO S) as (_ & _ & O).
    destruct (Nat.eq_dec n m) as [->|NM].
    + destruct (nth_error (jt_readers t) m) as [q|] eqn:NE.
      * eapply (v_own t tr m q); eauto.
      * destruct (nobody _ _ _ _ _ WHO NE S) as [-> ->]. congruence.
    + rewrite (O _ NM) in H. apply v_more; auto. apply other_places. apply concerns_other. congruence.
  - assert (P : places n (tr ++ [(o, out)]) = places n tr) by (apply other_places, concerns_other; congruence).
    apply v_more; auto.
    assert (DEC : o = JConsume \/ o <> JConsume) by (destruct o; auto; right; discriminate).
    destruct DEC as [->|NC].
    + cbn in S. injection S as <- <-. cbn in H. destruct (Nat.lt_ge_cases n (length (jt_readers t))).
      * rewrite nth_error_app1 in H by auto. auto.
      * destruct (i_none _ _ J n) as (A & _); [apply nth_error_None; auto|].
        rewrite nth_error_app2 in H by auto.
        destruct (n - length (jt_readers t))%nat as [|k] eqn:K; [|destruct k; discriminate].
        injection H as <-. intros _ _. split; auto. unfold new_reader. destruct (start_next t 0). discriminate.
    + rewrite (writer_readers _ _ _ _ WHO NC S) in H. auto.
Qed.

Lemma over_now : forall t tr n b t', jinv t tr -> (forall r, nth_error (jt_readers t) n = Some r -> vside tr n r) ->
  jstep t (JTickC n b) = (t', JOver) ->
  (exists e, In (JEnd e, JDone) tr) /\
  ((forall out, ~ In (JNextGroup n, out) tr) -> forall id i, last (map Some (added tr)) None = Some id -> In (id, i) (places n tr) ->
     forall k, (k < length (written tr id))%nat -> exists d, In ((id, k), d) (shown n tr)).
Proof.
  intros t tr n b t' J V S. cbn [jstep] in S. destruct (nth_error (jt_readers t) n) as [r|] eqn:N; [|discriminate].
  destruct (tick_call t r b) as [[r' out]|] eqn:T; [|discriminate]. injection S as <- ->.
  pose proof (i_r _ _ J _ _ N) as R. pose proof (i_w _ _ J) as W. specialize (V _ eq_refl).
  assert (L : jr_left r = false) by (apply (call_left _ _ _ _ R); intros X; unfold tick_call in T; rewrite X in T; discriminate).
  assert (X : jr_group r = GGot None /\ (jr_call r = CGroup \/ jr_frame r <> FWait /\ forall d, jr_frame r <> FGot (Some d))).
  { unfold tick_call in T. destruct (jr_call r) eqn:CALL; [discriminate| | | | ].
    - destruct (jr_group r) as [k|[id|]|]; try discriminate; auto. apply some_inj in T. unfold finish_group in T.
      destruct (start_next t (jr_epoch r)), (peek_frame t (Some (id, O))). discriminate.
    - exfalso. assert (Z : race_frame t r = Some (r', JOver) \/ race_group t r = Some (r', JOver)).
      { destruct (jr_frame r); auto; destruct (race_frame t r), (race_group t r), b; auto. }
      unfold race_frame, race_group in Z. destruct Z as [Z|Z].
      + destruct (jr_frame r) as [| |[d|]|]; try discriminate. apply some_inj in Z. unfold finish_frame in Z.
        destruct (jr_cur r) as [[id i]|]; [destruct (peek_frame t (Some (id, i)))|]; discriminate.
      + destruct (jr_group r) as [k|[id|]|]; discriminate.
    - destruct (jr_group r) as [k|[id|]|]; try discriminate; auto. split; auto. right. apply (r_gwait _ _ _ _ R CALL).
    - split; [apply (r_fwait _ _ _ _ R CALL)|]. right.
      destruct (jr_frame r) as [| |[d|]|]; try discriminate; try (split; discriminate). apply some_inj in T. unfold finish_frame in T.
      destruct (jr_cur r) as [[id i]|]; [destruct (peek_frame t (Some (id, i)))|]; discriminate. }
  destruct X as [G F]. split.
  - destruct (jt_end t) eqn:E; [eapply (w_end _ _ W); eauto|]. exfalso. apply (r_over _ _ _ _ R L); auto.
  - intros NG id i LAST P k K. destruct (V NG L) as [NC VN]. destruct F as [F|[F1 F2]]; [congruence|].
    destruct (jr_cur r) as [[c j]|] eqn:C.
    2: { rewrite (VN eq_refl) in P. destruct P. }
    assert (CA : In c (added tr)).
    { destruct (r_mark _ _ _ _ R) as (m & _ & _ & M & _). eapply early_added; [exact W|]. eapply M; eauto. }
    assert (CI : c <= id).
    { clear - LAST CA W. pose proof (w_sorted _ _ W) as SS. induction (added tr) as [|a l IH]; [destruct CA|].
      inversion SS; subst. destruct l as [|a' l].
      - cbn in LAST. injection LAST as ->. destruct CA as [->|[]]. lia.
      - assert (LL : last (map Some (a' :: l)) None = Some id) by exact LAST. destruct CA as [->|CA]; auto.
        assert (In id (a' :: l)).
        { clear - LL. revert a' LL. induction l as [|b l IH]; intros a LL; cbn in LL; [injection LL as ->; left; auto|].
          right. apply IH. exact LL. }
        rewrite Forall_forall in H2. specialize (H2 _ H). lia. }
    pose proof (r_here _ _ _ _ R _ _ C) as HH. rewrite Forall_forall in HH. specialize (HH _ P).
    assert (c = id).
    { destruct HH as [[HH|[HH _]]|HH]; cbn in HH; [lia|auto|]. injection HH as ->. auto. }
    subst c. pose proof (r_frame _ _ _ _ R) as FO.
    assert (CNT : jr_count r = length (written tr id)).
    { destruct (jr_frame r) as [| |[d|]|] eqn:FR; cbn in FO.
      - congruence.
      - congruence.
      - destruct (F2 d eq_refl).
      - destruct FO as (id' & g & C' & FO & _). rewrite C in C'. injection C' as <- _. auto.
      - destruct FO as (id' & g & C' & FO & _). rewrite C in C'. injection C' as <- _. auto. }
    apply (r_cont _ _ _ _ R id j k C). lia.
Qed.

Lemma v_run_from : forall ops t tr t' tr' n, jinv t tr -> (forall r, nth_error (jt_readers t) n = Some r -> vside tr n r) ->
  jrun t ops = (t', tr') -> forall a b c, tr' = a ++ (JTickC n b, JOver) :: c ->
  (exists e, In (JEnd e, JDone) (tr ++ a)) /\
  ((forall out, ~ In (JNextGroup n, out) (tr ++ a)) -> forall id i, last (map Some (added (tr ++ a))) None = Some id ->
     In (id, i) (places n (tr ++ a)) ->
     forall k, (k < length (written (tr ++ a) id))%nat -> exists d, In ((id, k), d) (shown n (tr ++ a))).
Proof.
  induction ops as [|o ops IH]; intros t tr t' tr' n J V H a b c E; cbn in H.
  - injection H as <- <-. destruct a; discriminate.
  - destruct (jstep t o) as [t1 out] eqn:S. destruct (jrun t1 ops) as [t2 tr2] eqn:Q. injection H as <- <-.
    destruct a as [|x a]; cbn in E.
    + injection E as -> -> _. rewrite app_nil_r. eapply over_now; eauto.
    + injection E as <- E2. assert (EQ : tr ++ (o, out) :: a = (tr ++ [(o, out)]) ++ a) by (now rewrite <- app_assoc).
      rewrite EQ. eapply IH; [eapply j_step; eauto| |exact Q|exact E2]. eapply v_step; eauto.
Qed.

Lemma told_over : forall ops t tr n a b c, jrun jt_init ops = (t, tr) -> tr = a ++ (JTickC n b, JOver) :: c ->
  (exists e, In (JEnd e, JDone) a) /\
  ((forall out, ~ In (JNextGroup n, out) a) -> forall id i, last (map Some (added a)) None = Some id -> In (id, i) (places n a) ->
     forall k, (k < length (written a id))%nat -> exists d, In ((id, k), d) (shown n a)).
Proof.
  intros ops t tr n a b c H E. refine (v_run_from ops jt_init [] t tr n j_init _ H a b c E). cbn. intros r X. destruct n; discriminate.
Qed.

(** A reader that sees one group added only. *)
Lemma one_group : forall n tr pre post, tr = pre ++ post -> ~ In (JConsume, JReaderIs n) (removelast pre) ->
  (length (added post) <= 1)%nat -> unhurried n tr.
Proof.
  intros n tr pre post -> NI L a x b y c E I [i Hx] [j Hy]. exfalso.
  assert (LE : (length pre <= length a)%nat).
  { destruct (Nat.le_gt_cases (length pre) (length a)) as [|G]; auto. exfalso. apply NI.
    assert (exists z, removelast pre = a ++ z).
    { clear - E G. revert a E G. induction pre as [|p pre IH]; intros a E G; [inversion G|].
      destruct a as [|q a]; [eexists; reflexivity|]. cbn in E. injection E as <- E.
      destruct pre as [|p2 pre]; [cbn in G; lia|]. destruct (IH a E) as [z Z]; [cbn in *; lia|].
      exists z. change (removelast (p :: p2 :: pre)) with (p :: removelast (p2 :: pre)). now rewrite Z. }
    destruct H as [z ->]. apply in_or_app. auto. }
  assert (P : exists a', post = a' ++ x :: b ++ y :: c).
  { clear - E LE. revert a E LE. induction pre as [|p pre IH]; intros a E LE; [exists a; exact E|].
    destruct a as [|q a]; [cbn in LE; lia|]. cbn in E. injection E as _ E. apply (IH a E). cbn in LE. lia. }
  destruct P as [a' ->]. unfold added in L. rewrite flat_map_app in L. cbn in L. rewrite flat_map_app in L. cbn in L.
  rewrite Hx, Hy in L. cbn in L. repeat (rewrite app_length in L; cbn in L). lia.
Qed.
