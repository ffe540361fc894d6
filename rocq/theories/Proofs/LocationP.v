(** Location tracks: what is in the track, and what readers are told. *)
From Coq Require Import NArith ZArith List Lia Bool Arith Sorted.
From Coq Require Import Init.Byte Strings.Byte.
From Verif.Model Require Import Base ErrorCode Stream Frame FrameSys GroupSys TrackSys Media.
From Verif.Proofs Require Import BaseP TableP MediaP CatalogP.
From Verif.Model Require Import Location.
From Verif.Spec Require Import LocationSpec.
Import ListNotations.
Open Scope nat_scope.

Ltac conjs := repeat match goal with |- _ /\ _ => split end.

(** * The wire *)
Lemma be32_bits n : (n < 2 ^ 32)%N -> bits (be32 n) n.
Proof.
  intros H. unfold be32. do 4 eexists. split; [reflexivity|]. rewrite !n_of_u8.
  change (2 ^ 8)%N with 256%N. change (2 ^ 16)%N with (256 * 256)%N. change (2 ^ 24)%N with (256 * 256 * 256)%N.
  change (2 ^ 32)%N with (256 * 256 * 256 * 256)%N in H.
  rewrite <- !N.div_div by discriminate.
  pose proof (N.div_mod n 256 ltac:(discriminate)). pose proof (N.mod_lt n 256 ltac:(discriminate)).
  set (n1 := (n / 256)%N) in *.
  pose proof (N.div_mod n1 256 ltac:(discriminate)). pose proof (N.mod_lt n1 256 ltac:(discriminate)).
  set (n2 := (n1 / 256)%N) in *.
  pose proof (N.div_mod n2 256 ltac:(discriminate)). pose proof (N.mod_lt n2 256 ltac:(discriminate)).
  set (n3 := (n2 / 256)%N) in *.
  assert (n3 < 256)%N by lia. rewrite (N.mod_small n3) by auto. lia.
Qed.

Lemma bits_of b n : bits b n <-> length b = 4 /\ of_be32 b = n.
Proof.
  split.
  - intros (b3 & b2 & b1 & b0 & -> & ->). split; auto. unfold of_be32. cbn [fold_left]. lia.
  - intros [L <-]. destruct b as [|b3 [|b2 [|b1 [|b0 [|]]]]]; try discriminate. do 4 eexists. split; [reflexivity|].
    unfold of_be32. cbn [fold_left]. lia.
Qed.

Lemma encode_wire x : is_place x -> on_wire x (place_encode x).
Proof. intros (H1 & H2 & H3). do 3 eexists. split; [reflexivity|]. auto using be32_bits. Qed.

Lemma on_wire_decode x b : on_wire x b <-> place_decode b = Some x.
Proof.
  unfold place_decode. split.
  - intros (p & q & r & -> & Hp & Hq & Hr). apply bits_of in Hp as [Lp Ep], Hq as [Lq Eq], Hr as [Lr Er].
    rewrite !app_length, Lp, Lq, Lr. cbn [Nat.eqb Nat.add].
    rewrite firstn_app, firstn_all2, Lp, Nat.sub_diag, firstn_O, app_nil_r, Ep by lia.
    rewrite skipn_app, (skipn_all2 p), Lp, Nat.sub_diag, skipn_O, app_nil_l by lia.
    rewrite firstn_app, firstn_all2, Lq, Nat.sub_diag, firstn_O, app_nil_r, Eq by lia.
    rewrite app_assoc, skipn_app, skipn_all2, app_length, Lp, Lq by (rewrite app_length; lia).
    change (8 - (4 + 4)) with 0. rewrite skipn_O, app_nil_l, Er. destruct x; reflexivity.
  - destruct (Nat.eqb_spec (length b) 12) as [L|]; [|discriminate]. intros E. injection E as <-.
    exists (firstn 4 b), (firstn 4 (skipn 4 b)), (skipn 8 b). cbn [pc_x pc_y pc_zoom]. split.
    + clear -L. do 12 (destruct b as [|? b]; [discriminate|]). destruct b; [reflexivity|discriminate].
    + rewrite !bits_of, !firstn_length, !skipn_length, L. cbn. auto.
Qed.

Lemma encode_len x : len (place_encode x) = 12%N.
Proof. reflexivity. Qed.

(** * Events *)
Lemma calls_snoc tr e : calls (tr ++ [e]) = call_event (calls tr) e.
Proof. unfold calls. rewrite fold_left_app. reflexivity. Qed.

Lemma published_after_snoc tr e : forall l,
  published_after l (tr ++ [e]) = published_after l tr ++ match e with (LStep p, LAppended) => call_of p (fold_left call_event tr l) | _ => [] end.
Proof.
  induction tr as [|a tr IH]; intros l; cbn [app published_after fold_left].
  - rewrite app_nil_r. reflexivity.
  - rewrite IH, app_assoc. reflexivity.
Qed.
Lemma published_snoc tr e :
  published (tr ++ [e]) = published tr ++ match e with (LStep p, LAppended) => call_of p (calls tr) | _ => [] end.
Proof. apply published_after_snoc. Qed.

Lemma answers_snoc tr e r : answers (tr ++ [e]) r = answers tr r ++
  match e with (LFrame r', x) => if Nat.eqb r r' && answer x then [x] else [] | _ => [] end.
Proof. unfold answers. rewrite flat_map_app. cbn. rewrite app_nil_r. reflexivity. Qed.

Lemma found_snoc tr e r : found (tr ++ [e]) r = found_event r (found tr r) e.
Proof. unfold found. rewrite fold_left_app. reflexivity. Qed.

Lemma cancelled_snoc tr e r : cancelled_late tr r -> cancelled_late (tr ++ [e]) r.
Proof. intros (b & a & -> & H). exists b, (a ++ [e]). rewrite <- app_assoc. auto. Qed.
Lemma cancelled_now tr r : found tr r = true -> cancelled_late (tr ++ [(LCancel r, LUnit)]) r.
Proof. intros H. exists tr, []. auto. Qed.

Lemma call_of_cons p q c l : call_of p ((q, c) :: l) = if Nat.eqb q p then c :: call_of p l else call_of p l.
Proof. unfold call_of. cbn. destruct (Nat.eqb q p); reflexivity. Qed.
Lemma call_of_done p q l : call_of p (filter (fun c : nat * content => negb (Nat.eqb (fst c) q)) l) = if Nat.eqb q p then [] else call_of p l.
Proof.
  unfold call_of. rewrite filter_filter. destruct (Nat.eqb_spec q p) as [->|N].
  - rewrite filter_false; auto. intros x. destruct (Nat.eqb (fst x) p); reflexivity.
  - f_equal. apply filter_ext. intros x. destruct (Nat.eqb_spec (fst x) p), (Nat.eqb_spec (fst x) q); auto; congruence.
Qed.

Definition began (tr : list levent) (p : nat) (c : content) : Prop :=
  match c with Pos x => In (LUpdate p x, LUnit) tr | Other d => In (LRaw p d, LUnit) tr end.
Lemma began_snoc tr e p c : began tr p c -> began (tr ++ [e]) p c.
Proof. destruct c; cbn; intros; apply in_app_iff; auto. Qed.

Lemma calls_in tr p c : In (p, c) (calls tr) -> began tr p c.
Proof.
  induction tr as [|[o x] tr IH] using rev_ind; [intros []|]. rewrite calls_snoc.
  assert (K : In (p, c) (calls tr) -> began (tr ++ [(o, x)]) p c) by auto using began_snoc.
  destruct o; cbn [call_event]; auto; destruct x; auto.
  - intros [E|H]; auto. injection E as -> <-. cbn. apply in_app_iff. cbn. auto.
  - intros [E|H]; auto. injection E as -> <-. cbn. apply in_app_iff. cbn. auto.
  - rewrite filter_In. tauto.
  - rewrite filter_In. tauto.
Qed.
Lemma call_of_in p l c : In c (call_of p l) -> In (p, c) l.
Proof.
  unfold call_of. rewrite in_map_iff. intros ([q d] & <- & H). apply filter_In in H as [H E]. cbn in E. apply Nat.eqb_eq in E. subst. auto.
Qed.
Lemma published_in tr c : In c (published tr) -> exists p, began tr p c.
Proof.
  induction tr as [|[o x] tr IH] using rev_ind; [intros []|]. rewrite published_snoc, in_app_iff. intros [H|H].
  - destruct (IH H) as (p & Hp). exists p. apply began_snoc. auto.
  - destruct o; cbn in H; try contradiction. destruct x; cbn in H; try contradiction.
    exists p. apply began_snoc. apply calls_in, call_of_in. auto.
Qed.

Lemma bounded_snoc w tr e : bounded w (tr ++ [e]) -> bounded w tr.
Proof.
  intros (H1 & H2 & H3). split; auto. split.
  - intros p d H. apply (H2 p). apply in_app_iff. auto.
  - rewrite app_length in H3. lia.
Qed.
Lemma positions_snoc tr e : positions (tr ++ [e]) -> positions tr.
Proof. intros H p x Hx. apply (H p). apply in_app_iff. auto. Qed.

(** * Groups *)
Definition data_of (c : content) : option bytes := match c with Pos x => Some (place_encode x) | Other d => d end.
Definition pos_of (c : content) : option place := match c with Pos x => Some x | Other _ => None end.

Definition esh (k : nat) (g : gsys) : Prop :=
  3 <= k /\ gs_heap g = [] /\ gs_frames g = [] /\
  gs_closed g = (if Nat.leb k 3 then None else Some Finished) /\
  gs_prods g = [if Nat.leb k 3 then Some tt else None] /\ gs_guards g = 0 /\
  get (gs_cons g) 0 = Some (GC 0 None).
Definition lsh (x : content * nat) (g : gsys) : Prop :=
  match data_of (fst x) with Some d => gsh (d, snd x) g | None => esh (snd x) g end.

Lemma lsh_cons0 x g : lsh x g -> get (gs_cons g) 0 = Some (GC 0 None).
Proof. unfold lsh, gsh, esh. destruct (data_of (fst x)); tauto. Qed.

Lemma lsh_cons x g t : lsh x g -> get t 0 = Some (GC 0 None) -> lsh x (gwith_cons g t).
Proof. unfold lsh. destruct (data_of (fst x)); [apply gsh_cons|]. unfold esh. cbn. tauto. Qed.

Lemma gframes_grow d k g g' : gsh (d, k) g -> gsh (d, S k) g' -> gs_frames g <> [] -> gs_frames g' <> [].
Proof. intros (_ & H & _) (_ & H' & _). rewrite H, H'. destruct k; congruence. Qed.

Definition stage_k (st : lstage) : nat :=
  match st with LCreate => 0 | LWrite => 1 | LFrameEnd => 2 | LGroupEnd => 3 | LStore => 4 | _ => 0 end.
Definition lops (d : option bytes) (k : nat) : list gop :=
  stage_ops (match d with Some d => d | None => [] end) k.

Lemma lsh_step w c k g : k <= 3 -> (forall d, data_of c = Some d -> (len d < 2 ^ w)%N) -> lsh (c, k) g ->
  exists g', gsteps w g (lops (data_of c) k) = (g', true) /\ lsh (c, S k) g' /\ gs_cons g' = gs_cons g /\
    (gs_frames g <> [] -> gs_frames g' <> []).
Proof.
  intros K Hd. unfold lsh, lops. cbn [fst snd]. destruct (data_of c) as [d|].
  - intros H. destruct (gsh_step (V:=unit) (A:=unit) (L:=unit) (fun _ => None) w d k g K (Hd _ eq_refl) H) as (g' & E & H' & Ec).
    exists g'. conjs; auto. eapply gframes_grow; eauto.
  - destruct g as [heap frames closed prods guards cons]. unfold esh. cbn [gs_heap gs_frames gs_closed gs_prods gs_guards gs_cons].
    intros (L & -> & -> & -> & -> & -> & C). assert (k = 3) as -> by lia. cbn. eexists. split; [reflexivity|]. cbn. auto 20.
Qed.

(** The answer to a reader of a group. *)
Definition read_of (c : content) (k : nat) : await (option bytes) :=
  match data_of c with
  | Some d => if Nat.leb k 2 then APending else AOk (Some d)
  | None => if Nat.leb k 3 then APending else AOk None
  end.
Lemma lsh_read c k g x : lsh (c, k) g -> (x = GC 0 None \/ (x = GC 1 (Some (0, 0)) /\ gs_frames g <> [])) ->
  exists y, group_read (gsys_alive g) (gs_heap g) (gs_frames g) (gs_closed g) x = Val (read_of c k, y) /\
    (read_of c k = APending -> y = GC 0 None \/ (y = GC 1 (Some (0, 0)) /\ gs_frames g <> [])).
Proof.
  unfold lsh, read_of. cbn [fst snd]. destruct (data_of c) as [d|].
  - intros H Hx. destruct (gsh_read (V:=unit) (A:=unit) (L:=unit) (fun _ => None) d k g x H Hx) as (y & E & Hy).
    exists y. split; auto. destruct (Nat.leb_spec k 2); auto. discriminate.
  - destruct g as [heap frames closed prods guards cons]. unfold esh. cbn [gs_heap gs_frames gs_closed gs_prods gs_guards gs_cons].
    intros (L & -> & -> & -> & -> & -> & C) [->|[-> F]]; [|contradiction F; reflexivity].
    destruct (Nat.leb_spec k 3); cbn; eexists; (split; [reflexivity|auto]).
Qed.

(** * The publishing side *)
Definition past (st : lstage) : bool := match st with LAppend1 | LAppend2 => false | _ => true end.
Definition owns (jobs : list (option job)) (p i : nat) : Prop :=
  exists j, nth_error jobs p = Some (Some j) /\ past (jb_stage j) = true /\ jb_group j = i.

Definition jobok (shapes : list (content * nat)) (cs : list content) (jo : option (option job)) (pr : option tprod) : Prop :=
  match jo with
  | Some (Some j) => exists c, cs = [c] /\ jb_data j = data_of c /\ jb_pos j = pos_of c /\
      match jb_stage j with
      | LAppend1 => pr = Some Idle
      | LAppend2 => exists n, pr = Some (Appending (N.of_nat n)) /\ n <= length shapes
      | st => pr = Some Idle /\ nth_error shapes (jb_group j) = Some (c, stage_k st)
      end
  | _ => cs = [] /\ forall n, pr <> Some (Appending n)
  end.

Record pinv (s : lsys) (tr : list levent) (shapes : list (content * nat)) : Prop := {
  p_fst : map fst shapes = published tr;
  p_groups : Forall2 lsh shapes (lc_groups s);
  p_latest : ts_latest (lc_track s) = latest_of (length (lc_groups s));
  p_len : length (lc_jobs s) = length (ts_prods (lc_track s));
  p_job : forall p, jobok shapes (call_of p (calls tr)) (nth_error (lc_jobs s) p) (get (ts_prods (lc_track s)) p);
  p_dist : forall p q i, owns (lc_jobs s) p i -> owns (lc_jobs s) q i -> p = q;
  p_inc : forall i c k, nth_error shapes i = Some (c, k) -> k <= 3 -> exists p, owns (lc_jobs s) p i }.

Lemma lfree_inv s p : lfree s p = true -> get (ts_prods (lc_track s)) p = Some Idle /\ nth_error (lc_jobs s) p = Some None.
Proof.
  unfold lfree, idle. intros H. apply andb_prop in H as [H1 H2].
  destruct (get _ p) as [[|]|]; try discriminate. destruct (nth_error _ p) as [[|]|]; try discriminate. auto.
Qed.

(** Events that do nothing on the publishing side. *)
Definition psilent (e : levent) : Prop :=
  (forall l, call_event l e = l) /\ match e with (LStep _, LAppended) => False | _ => True end.
Lemma published_silent tr e : psilent e -> published (tr ++ [e]) = published tr.
Proof.
  intros [_ H]. rewrite published_snoc. destruct e as [[] []]; try apply app_nil_r. destruct H.
Qed.
Lemma calls_silent tr e : psilent e -> calls (tr ++ [e]) = calls tr.
Proof. intros [H _]. rewrite calls_snoc. auto. Qed.

Lemma pinv_same s s' tr e sh : pinv s tr sh -> psilent e -> lc_jobs s' = lc_jobs s ->
  ts_latest (lc_track s') = ts_latest (lc_track s) -> ts_prods (lc_track s') = ts_prods (lc_track s) ->
  Forall2 lsh sh (lc_groups s') -> pinv s' (tr ++ [e]) sh.
Proof.
  intros [P1 P2 P3 P4 P5 P6 P7] Se Ej El Ep G.
  assert (Lg : length (lc_groups s') = length (lc_groups s)) by (rewrite <- (Forall2_length _ _ _ G), <- (Forall2_length _ _ _ P2); auto).
  split; rewrite ?(published_silent _ _ Se), ?(calls_silent _ _ Se), ?Ej, ?El, ?Ep, ?Lg; auto.
Qed.

Lemma owns_set jobs p j q i : owns (set_nth p j jobs) q i ->
  (p = q /\ exists j', j = Some j' /\ past (jb_stage j') = true /\ jb_group j' = i) \/ (p <> q /\ owns jobs q i).
Proof.
  intros (j' & Hj & Hp & Hg). destruct (Nat.eq_dec p q) as [->|N].
  - destruct (Nat.lt_ge_cases q (length jobs)).
    + rewrite nth_error_set_eq in Hj by auto. injection Hj as ->. left. eauto.
    + assert (E : nth_error (set_nth q j jobs) q = None) by (apply nth_error_None; rewrite set_nth_length; auto). congruence.
  - rewrite nth_error_set_ne in Hj by auto. right. unfold owns. eauto.
Qed.
Lemma owns_ne jobs p j q i : p <> q -> owns jobs q i -> owns (set_nth p j jobs) q i.
Proof. intros N (j' & H & ?). exists j'. rewrite nth_error_set_ne by auto. auto. Qed.

(** A call begins. *)
Lemma step_begin s tr sh p c e : pinv s tr sh -> lfree s p = true ->
  (forall l, call_event l e = (p, c) :: l) -> (match e with (LStep _, _) => False | _ => True end) ->
  pinv (set_job s p (Some (Job (data_of c) (pos_of c) LAppend1 0))) (tr ++ [e]) sh.
Proof.
  intros [P1 P2 P3 P4 P5 P6 P7] F Ee Es. apply lfree_inv in F as [Fi Fj].
  assert (Lp : p < length (lc_jobs s)) by (apply nth_error_Some; congruence).
  split; cbn [lc_jobs lc_track lc_groups set_job lwith_jobs]; rewrite ?set_nth_length; auto.
  - rewrite published_snoc, P1. destruct e as [[] []]; try (symmetry; apply app_nil_r). destruct Es.
  - intros q. rewrite calls_snoc, Ee, call_of_cons. destruct (Nat.eqb_spec p q) as [<-|N].
    + rewrite nth_error_set_eq by auto. pose proof (P5 p) as J. rewrite Fj in J. cbn in J. destruct J as [-> _].
      exists c. auto.
    + rewrite nth_error_set_ne by auto. apply P5.
  - intros q q' i H H'. apply owns_set in H as [(<- & j & E & Hj & _)|[N H]]; [injection E as <-; discriminate|].
    apply owns_set in H' as [(<- & j & E & Hj & _)|[N' H']]; [injection E as <-; discriminate|]. eauto.
  - intros i c' k H K. destruct (P7 _ _ _ H K) as (q & Hq). exists q. apply owns_ne; auto.
    intros <-. destruct Hq as (j & Hj & _). congruence.
Qed.

Lemma groups_grow_set gs i g g' : nth_error gs i = Some g -> gs_cons g' = gs_cons g -> (gs_frames g <> [] -> gs_frames g' <> []) ->
  groups_grow gs (set_nth i g' gs).
Proof.
  intros Hi Ec Ef. split; [rewrite set_nth_length; lia|]. intros j x Hj. destruct (Nat.eq_dec i j) as [->|N].
  - rewrite Hi in Hj. injection Hj as <-. exists g'. rewrite nth_error_set_eq by (apply nth_error_Some; congruence). auto.
  - exists x. rewrite nth_error_set_ne by auto. auto.
Qed.

Lemma past_k st : past st = true -> forall sh cs j pr, jb_stage j = st -> jobok sh cs (Some (Some j)) pr ->
  exists c, cs = [c] /\ jb_data j = data_of c /\ jb_pos j = pos_of c /\ pr = Some Idle /\ nth_error sh (jb_group j) = Some (c, stage_k st).
Proof. intros P sh cs j pr <- (c & -> & H1 & H2 & H3). exists c. destruct (jb_stage j); try discriminate; destruct H3; auto 6. Qed.

Lemma jobok_shapes sh i c k k' cs jo pr : jobok sh cs jo pr -> nth_error sh i = Some (c, k) ->
  (forall j, jo = Some (Some j) -> past (jb_stage j) = true -> jb_group j <> i) -> jobok (set_nth i (c, k') sh) cs jo pr.
Proof.
  intros H Hi Hn. destruct jo as [[j|]|]; auto. destruct H as (c0 & H1 & H2 & H3 & H4). exists c0. conjs; auto.
  specialize (Hn j eq_refl). destruct (jb_stage j); rewrite ?set_nth_length; auto; rewrite nth_error_set_ne by (apply not_eq_sym, Hn; auto); auto.
Qed.

(** A critical section of a call. *)
Definition data_fits (w : N) (tr : list levent) : Prop :=
  forall p c d, In (p, c) (calls tr) -> data_of c = Some d -> (len d < 2 ^ w)%N.
Lemma bounded_fits w tr : bounded w tr -> data_fits w tr.
Proof.
  intros (H1 & H2 & _) p c d Hc Hd. apply calls_in in Hc. destruct c as [x|[d'|]]; cbn [data_of began] in *; try discriminate.
  - assert (d = place_encode x) as -> by congruence. rewrite encode_len. auto.
  - injection Hd as <-. eauto.
Qed.

Lemma map_fst_set {X Y} (l : list (X * Y)) i x y y' : nth_error l i = Some (x, y) -> map fst (set_nth i (x, y') l) = map fst l.
Proof.
  revert i. induction l as [|[a b] l IH]; intros [|i] H; cbn in *; try discriminate.
  - injection H as -> _. reflexivity.
  - f_equal. auto.
Qed.

Lemma step_own w s tr sh p j : pinv s tr sh -> data_fits w tr -> nth_error (lc_jobs s) p = Some (Some j) ->
  past (jb_stage j) = true -> forall next, past next = true -> stage_k next = S (stage_k (jb_stage j)) -> stage_k (jb_stage j) <= 3 ->
  forall ops, ops = lops (jb_data j) (stage_k (jb_stage j)) ->
  let '(s', x) := on_own w s p j ops next in
  x = LUnit /\ (exists sh', pinv s' (tr ++ [(LStep p, LUnit)]) sh') /\ groups_grow (lc_groups s) (lc_groups s') /\
  lc_readers s' = lc_readers s /\ lc_track s' = lc_track s /\ lc_latest s' = lc_latest s /\
  lc_jobs s' = set_nth p (Some (Job (jb_data j) (jb_pos j) next (jb_group j))) (lc_jobs s).
Proof.
  intros [P1 P2 P3 P4 P5 P6 P7] F Hj Hp next Hn Kn K ops ->.
  pose proof (P5 p) as J. rewrite Hj in J. destruct (past_k _ Hp _ _ _ _ eq_refl J) as (c & Hc & Hd & Hps & Hi & Hs).
  assert (Lp : p < length (lc_jobs s)) by (apply nth_error_Some; congruence).
  assert (Lg : jb_group j < length sh) by (apply nth_error_Some; congruence).
  assert (Ln : length sh = length (lc_groups s)) by (apply (Forall2_length _ _ _ P2)).
  unfold on_own. destruct (nth_error (lc_groups s) (jb_group j)) as [g|] eqn:Eg; [|apply nth_error_None in Eg; lia].
  pose proof (Forall2_nth_error _ _ _ _ _ _ P2 Hs Eg) as Sg.
  destruct (lsh_step w c _ g K) with (2 := Sg) as (g' & Eo & Sg' & Ec & Ef).
  { intros d Hdd. apply (F p c); auto. apply call_of_in. rewrite Hc. cbn. auto. }
  rewrite Hd, Eo. cbn [lc_groups lc_track lc_jobs lc_readers lc_latest lwith_groups set_job lwith_jobs].
  split; auto. split; [|conjs; auto; eapply groups_grow_set; eauto].
  exists (set_nth (jb_group j) (c, stage_k next) sh).
  assert (Se : psilent (LStep p, LUnit)) by (split; [reflexivity|exact I]).
  split; cbn [lc_groups lc_track lc_jobs lc_readers lc_latest lwith_groups set_job lwith_jobs];
    rewrite ?set_nth_length, ?(published_silent _ _ Se), ?(calls_silent _ _ Se); auto.
  - rewrite (map_fst_set _ _ _ _ _ Hs). auto.
  - rewrite Kn. eapply Forall2_set; eauto.
  - intros q. destruct (Nat.eq_dec p q) as [<-|N].
    + rewrite nth_error_set_eq by auto. exists c. cbn [jb_data jb_pos jb_stage jb_group]. conjs; auto.
      rewrite nth_error_set_eq by auto. destruct next; try discriminate; auto.
    + rewrite nth_error_set_ne by auto. eapply jobok_shapes; eauto. intros j' Hj' Hp' E.
      apply N. apply (P6 p q (jb_group j)); [exists j|exists j']; auto.
  - intros q q' i H H'. apply owns_set in H as [(<- & j1 & E & Hj1 & Hg1)|[N1 H]];
    apply owns_set in H' as [(<- & j2 & E' & Hj2 & Hg2)|[N2 H']]; auto.
    + injection E as <-. cbn in Hg1. apply (P6 p q' i); auto. exists j. auto.
    + injection E' as <-. cbn in Hg2. apply (P6 q p i); auto. exists j. auto.
    + eauto.
  - intros i c' k H K'. destruct (Nat.eq_dec (jb_group j) i) as [<-|N].
    + exists p. eexists. rewrite nth_error_set_eq by auto. split; [reflexivity|]. auto.
    + rewrite nth_error_set_ne in H by auto. destruct (P7 _ _ _ H K') as (q & Hq). exists q. apply owns_ne; auto.
      intros <-. destruct Hq as (j' & Hj' & _ & Hg'). rewrite Hj in Hj'. injection Hj' as <-. auto.
Qed.

(** A call is over: stored, or it panicked while it had no group. *)
Lemma step_over s tr sh p j x s' : pinv s tr sh -> nth_error (lc_jobs s) p = Some (Some j) ->
  (past (jb_stage j) = false \/ jb_stage j = LStore) -> (x = LStored \/ x = LPanic) ->
  lc_jobs s' = set_nth p None (lc_jobs s) -> lc_groups s' = lc_groups s -> ts_latest (lc_track s') = ts_latest (lc_track s) ->
  (ts_prods (lc_track s') = ts_prods (lc_track s) /\ jb_stage j <> LAppend2 \/ ts_prods (lc_track s') = set_nth p (Some Idle) (ts_prods (lc_track s)) /\ get (ts_prods (lc_track s)) p <> None) ->
  pinv s' (tr ++ [(LStep p, x)]) sh.
Proof.
  intros [P1 P2 P3 P4 P5 P6 P7] Hj Hst Hx Ej Eg El Ep.
  assert (Lp : p < length (lc_jobs s)) by (apply nth_error_Some; congruence).
  assert (Ce : calls (tr ++ [(LStep p, x)]) = filter (fun c => negb (Nat.eqb (fst c) p)) (calls tr)).
  { rewrite calls_snoc. destruct Hx as [->| ->]; reflexivity. }
  assert (Gp : forall q, q <> p -> get (ts_prods (lc_track s')) q = get (ts_prods (lc_track s)) q).
  { intros q N. destruct Ep as [[-> _]|[-> _]]; auto. apply get_set_ne. auto. }
  split; rewrite ?Ej, ?Eg, ?El, ?set_nth_length, ?Ce; auto.
  - rewrite published_snoc, P1. destruct Hx as [->| ->]; symmetry; apply app_nil_r.
  - destruct Ep as [[-> _]|[-> _]]; rewrite ?set_nth_length; auto.
  - intros q. rewrite call_of_done. destruct (Nat.eqb_spec p q) as [<-|N].
    + rewrite nth_error_set_eq by auto. split; auto. intros n H. pose proof (P5 p) as J. rewrite Hj in J. destruct J as (c & _ & _ & _ & J).
      destruct Ep as [[Ep Ns]|[Ep Np]].
      * rewrite Ep in H. destruct (jb_stage j); try congruence; destruct J; congruence.
      * rewrite Ep in H. destruct (get (ts_prods (lc_track s)) p) eqn:E; [|congruence].
        rewrite (get_set_eq _ _ _ _ E) in H. discriminate.
    + rewrite nth_error_set_ne, Gp by auto. apply P5.
  - intros q q' i H H'. apply owns_set in H as [(<- & j1 & E & _)|[N1 H]]; [discriminate|].
    apply owns_set in H' as [(<- & j2 & E' & _)|[N2 H']]; [discriminate|]. eauto.
  - intros i c k H K. destruct (P7 _ _ _ H K) as (q & Hq). exists q. apply owns_ne; auto. intros <-.
    destruct Hq as (j' & Hj' & Hp' & Hg'). rewrite Hj in Hj'. injection Hj' as <-.
    destruct Hst as [Hst|Hst]; [congruence|]. pose proof (P5 p) as J. rewrite Hj in J.
    destruct (past_k _ Hp' _ _ _ _ eq_refl J) as (c' & _ & _ & _ & _ & Hs). rewrite Hg', Hst, H in Hs. injection Hs as _ ->. cbn in K. lia.
Qed.

Lemma jobok_app sh more cs jo pr : jobok sh cs jo pr -> jobok (sh ++ more) cs jo pr.
Proof.
  destruct jo as [[j|]|]; auto. intros (c & H1 & H2 & H3 & H4). exists c. conjs; auto.
  assert (A : forall k, nth_error sh (jb_group j) = Some (c, k) -> nth_error (sh ++ more) (jb_group j) = Some (c, k)).
  { intros k H. rewrite nth_error_app1; auto. apply nth_error_Some. congruence. }
  destruct (jb_stage j); try (destruct H4 as [? ?]; split; [assumption|apply A; assumption]).
  - auto.
  - destruct H4 as (n & ? & ?). exists n. rewrite app_length. split; auto. lia.
Qed.

(** What a step of a call does, apart from the readers. *)
Lemma step_call w m s tr sh p j : pinv s tr sh -> data_fits w tr -> (N.of_nat (length (lc_groups s)) < 2 ^ 64)%N ->
  nth_error (lc_jobs s) p = Some (Some j) ->
  let '(s', x) := lupdate w m s p j in
  (exists sh', pinv s' (tr ++ [(LStep p, x)]) sh') /\ groups_grow (lc_groups s) (lc_groups s') /\
  lc_readers s' = lc_readers s /\ ts_cons (lc_track s') = ts_cons (lc_track s) /\ ts_closed (lc_track s') = ts_closed (lc_track s) /\
  match jb_stage j with
  | LAppend1 => x = LUnit /\ lc_latest s' = lc_latest s /\ lc_groups s' = lc_groups s /\
      ts_prods (lc_track s') = set_nth p (Some (Appending (N.of_nat (length (lc_groups s))))) (ts_prods (lc_track s)) /\
      lc_jobs s' = set_nth p (Some (Job (jb_data j) (jb_pos j) LAppend2 0)) (lc_jobs s)
  | LAppend2 => lc_latest s' = lc_latest s /\
      (x = LAppended /\ (exists g', lc_jobs s' = set_nth p (Some (Job (jb_data j) (jb_pos j) (match jb_data j with Some _ => LCreate | None => LGroupEnd end) g')) (lc_jobs s)) \/
       x = LPanic /\ lc_jobs s' = set_nth p None (lc_jobs s) /\ lc_groups s' = lc_groups s /\
       (ts_closed (lc_track s) <> None \/ get (ts_prods (lc_track s)) p <> Some (Appending (N.of_nat (length (lc_groups s))))))
  | LStore => x = LStored /\ lc_latest s' = (match jb_pos j with Some y => Some y | None => lc_latest s end) /\ lc_jobs s' = set_nth p None (lc_jobs s) /\
      lc_groups s' = lc_groups s
  | _ => x = LUnit /\ lc_latest s' = lc_latest s /\
      exists next, past next = true /\ lc_jobs s' = set_nth p (Some (Job (jb_data j) (jb_pos j) next (jb_group j))) (lc_jobs s)
  end.
Proof.
  intros P F B Hj. pose proof P as [P1 P2 P3 P4 P5 P6 P7].
  assert (Lp : p < length (lc_jobs s)) by (apply nth_error_Some; congruence).
  assert (Ln : length sh = length (lc_groups s)) by (apply (Forall2_length _ _ _ P2)).
  pose proof (P5 p) as J. rewrite Hj in J. 
  unfold lupdate. destruct (jb_stage j) eqn:Es.
  - destruct J as (c & Hc & Hd & Hps & Hi). rewrite Es in Hi. cbn [tstep]. unfold idle. rewrite Hi, P3, (latest_next _ _ B).
    split; [|conjs; auto using groups_grow_refl]. exists sh.
    assert (Se : psilent (LStep p, LUnit)) by (split; [reflexivity|exact I]).
    split; cbn [lc_groups lc_track lc_jobs lc_readers lc_latest lwith_groups set_job lwith_jobs lwith_track ts_prods twith_prods ts_latest];
      rewrite ?set_nth_length, ?(published_silent _ _ Se), ?(calls_silent _ _ Se); auto.
    + intros q. destruct (Nat.eq_dec p q) as [<-|N].
      * rewrite nth_error_set_eq by auto. rewrite (get_set_eq _ _ _ _ Hi). exists c. cbn [jb_data jb_pos jb_stage]. conjs; auto.
        eexists. split; [reflexivity|]. lia.
      * rewrite nth_error_set_ne, get_set_ne by auto. auto.
    + intros q q' i H H'. apply owns_set in H as [(<- & j1 & E & Hp1 & _)|[N1 H]]; [injection E as <-; discriminate|].
      apply owns_set in H' as [(<- & j2 & E' & Hp2 & _)|[N2 H']]; [injection E' as <-; discriminate|]. eauto.
    + intros i c0 k H K. destruct (P7 _ _ _ H K) as (q & Hq). exists q. apply owns_ne; auto. intros <-.
      destruct Hq as (j' & Hj' & Hp' & _). rewrite Hj in Hj'. injection Hj' as <-. rewrite Es in Hp'. discriminate.
  - destruct J as (c & Hc & Hd & Hps & Hi). rewrite Es in Hi. destruct Hi as (n & Hi & Ln'). cbn [tstep]. rewrite Hi.
    cbn [ts_latest ts_closed twith_prods]. unfold track_insert. cbn [g_seq].
    assert (Panic : pinv (set_job (lwith_track s (twith_prods (lc_track s) (set_nth p (Some Idle) (ts_prods (lc_track s))))) p None) (tr ++ [(LStep p, LPanic)]) sh).
    { eapply step_over; eauto; [left; rewrite Es; auto|]. right. cbn. split; auto. congruence. }
    destruct (ts_closed (lc_track s)) as [o|] eqn:Ec.
    { split; [eauto|]. conjs; auto using groups_grow_refl. right. conjs; auto. left. congruence. }
    assert (Ins : match ts_latest (lc_track s) with
       | Some l => if (g_seq l <? N.of_nat n)%N then Val (true, Some (Group (N.of_nat n) (length (lc_groups s)))) else Val (false, ts_latest (lc_track s))
       | None => Val (true, Some (Group (N.of_nat n) (length (lc_groups s)))) end
       = if Nat.eqb n (length (lc_groups s)) then Val (true, latest_of (S (length (lc_groups s)))) else Val (false, ts_latest (lc_track s))).
    { rewrite P3. destruct (length (lc_groups s)) as [|l] eqn:En; cbn [latest_of].
      - assert (n = 0) as -> by lia. reflexivity.
      - cbn [g_seq]. destruct (Nat.eqb_spec n (S l)) as [->|N].
        + destruct (N.ltb_spec (N.of_nat l) (N.of_nat (S l))); [reflexivity|lia].
        + destruct (N.ltb_spec (N.of_nat l) (N.of_nat n)); [lia|reflexivity]. }
    rewrite Ins. destruct (Nat.eqb_spec n (length (lc_groups s))) as [->|N]; cycle 1.
    { split; [eauto|]. conjs; auto using groups_grow_refl. right. conjs; auto. right. intros E. injection E as E. apply N. lia. }
    set (g := fst (gstep w gsys_new (GConsume 0))).
    set (k := match data_of c with Some _ => 0 | None => 3 end).
    assert (Gg : lsh (c, k) g).
    { unfold lsh, k. cbn [fst snd]. destruct (data_of c); unfold esh; cbn; conjs; auto. }
    split; [|conjs; cbn; eauto using groups_grow_app].
    exists (sh ++ [(c, k)]).
    split; cbn [lc_groups lc_track lc_jobs lc_readers lc_latest lwith_groups set_job lwith_jobs lwith_track ts_prods twith_prods ts_latest twith_latest];
      rewrite ?set_nth_length; auto.
    + rewrite map_app, P1, published_snoc, Hc. reflexivity.
    + apply Forall2_app; auto.
    + rewrite app_length, Nat.add_comm. reflexivity.
    + intros q. rewrite calls_snoc. cbn [call_event]. destruct (Nat.eq_dec p q) as [<-|N].
      * rewrite nth_error_set_eq by auto. rewrite (get_set_eq _ _ _ _ Hi). exists c. cbn [jb_data jb_pos jb_stage jb_group]. conjs; auto.
        rewrite Hd. unfold k. rewrite <- Ln. destruct (data_of c); (split; [auto|apply nth_last]).
      * rewrite nth_error_set_ne, get_set_ne by auto. apply jobok_app. auto.
    + assert (Nu : forall q, ~ owns (lc_jobs s) q (length (lc_groups s))).
      { intros q (j' & Hj' & Hp' & Hg'). pose proof (P5 q) as J. rewrite Hj' in J.
        destruct (past_k _ Hp' _ _ _ _ eq_refl J) as (c' & _ & _ & _ & _ & Hs).
        assert (jb_group j' < length sh) by (apply nth_error_Some; congruence). lia. }
      intros q q' i H H'. apply owns_set in H as [(<- & j1 & E & Hj1 & Hg1)|[N1 H]];
      apply owns_set in H' as [(<- & j2 & E' & Hj2 & Hg2)|[N2 H']]; auto.
      * injection E as <-. cbn in Hg1. subst i. destruct (Nu _ H').
      * injection E' as <-. cbn in Hg2. subst i. destruct (Nu _ H).
      * eauto.
    + intros i c' k' H K. apply nth_error_split2 in H as [[Li H]|[-> H]].
      * destruct (P7 _ _ _ H K) as (q & Hq). exists q. apply owns_ne; auto. intros <-.
        destruct Hq as (j' & Hj' & Hp' & _). rewrite Hj in Hj'. injection Hj' as <-. rewrite Es in Hp'. discriminate.
      * exists p. eexists. rewrite nth_error_set_eq by auto. split; [reflexivity|]. cbn. rewrite Ln. split; auto. destruct (jb_data j); auto.
  - pose proof (step_own w s tr sh p j P F Hj) as H. rewrite Es in H.
    specialize (H eq_refl LWrite eq_refl eq_refl ltac:(cbn; lia) _ eq_refl). cbn [stage_k lops stage_ops] in H. unfold lops, stage_ops in H.
    destruct (on_own _ _ _ _ _ _) as [s' x]. destruct H as (-> & H1 & H2 & H3 & H4 & H5 & H6). rewrite H4. conjs; eauto. exists LWrite. auto.
  - pose proof (step_own w s tr sh p j P F Hj) as H. rewrite Es in H.
    specialize (H eq_refl LFrameEnd eq_refl eq_refl ltac:(cbn; lia) _ eq_refl). cbn [stage_k lops stage_ops] in H. unfold lops, stage_ops in H.
    destruct (on_own _ _ _ _ _ _) as [s' x]. destruct H as (-> & H1 & H2 & H3 & H4 & H5 & H6). rewrite H4. conjs; eauto. exists LFrameEnd. auto.
  - pose proof (step_own w s tr sh p j P F Hj) as H. rewrite Es in H.
    specialize (H eq_refl LGroupEnd eq_refl eq_refl ltac:(cbn; lia) _ eq_refl). cbn [stage_k lops stage_ops] in H. unfold lops, stage_ops in H.
    destruct (on_own _ _ _ _ _ _) as [s' x]. destruct H as (-> & H1 & H2 & H3 & H4 & H5 & H6). rewrite H4. conjs; eauto. exists LGroupEnd. auto.
  - pose proof (step_own w s tr sh p j P F Hj) as H. rewrite Es in H.
    specialize (H eq_refl LStore eq_refl eq_refl ltac:(cbn; lia) _ eq_refl). cbn [stage_k lops stage_ops] in H. unfold lops, stage_ops in H.
    destruct (on_own _ _ _ _ _ _) as [s' x]. destruct H as (-> & H1 & H2 & H3 & H4 & H5 & H6). rewrite H4. conjs; eauto. exists LStore. auto.
  - split; [|conjs; auto using groups_grow_refl]. exists sh. eapply step_over; eauto. left. cbn. split; auto. rewrite Es. discriminate.
Qed.

(** * Readers *)
Definition got (pub : list content) (js : list nat) (l : list lout) : Prop :=
  StronglySorted lt js /\ Forall2 (fun j x => exists c, nth_error pub j = Some c /\ told c x) js l.
Lemma got_ext pub more js l : got pub js l -> got (pub ++ more) js l.
Proof.
  intros [H1 H2]. split; auto. eapply Forall2_impl; [|exact H2]. cbn. intros j x (c & Hc & ?).
  exists c. split; auto. rewrite nth_error_app1; auto. apply nth_error_Some. congruence.
Qed.

Definition rok (t : table (option N)) (groups : list gsys) (pub : list content) (l : list lout) (fd : bool) (late : Prop)
    (r : nat) (rd : lreader) : Prop :=
  lr_track rd = r /\ exists prev js, get t r = Some prev /\ got pub js l /\
  match lr_group rd with
  | None => fd = false /\ ((prev = None /\ js = []) \/
      exists j, prev = Some (N.of_nat j) /\ j < length groups /\ Forall (fun i => i <= j) js /\ (late \/ exists js0, js = js0 ++ [j]))
  | Some (j, c) => fd = true /\ prev = Some (N.of_nat j) /\ Forall (fun i => i < j) js /\ c <> 0 /\
      exists g, nth_error groups j = Some g /\ cons_ok g c
  end.

Record rinv (s : lsys) (tr : list levent) : Prop := {
  r_cons : length (ts_cons (lc_track s)) = length (lc_readers s);
  r_ok : forall r rd, nth_error (lc_readers s) r = Some rd ->
           rok (ts_cons (lc_track s)) (lc_groups s) (published tr) (answers tr r) (found tr r) (cancelled_late tr r) r rd;
  r_out : forall r, length (lc_readers s) <= r -> answers tr r = [] /\ found tr r = false;
  r_inj : forall r r' a b x, nth_error (lc_readers s) r = Some a -> nth_error (lc_readers s) r' = Some b ->
            lr_group a = Some x -> lr_group b = Some x -> r = r' }.

Lemma rok_ext t t' gs gs' pub more l fd (late late' : Prop) r rd : rok t gs pub l fd late r rd ->
  get t' r = get t r -> length gs <= length gs' -> (late -> late') ->
  (forall j c g, lr_group rd = Some (j, c) -> nth_error gs j = Some g -> cons_ok g c -> exists g', nth_error gs' j = Some g' /\ cons_ok g' c) ->
  rok t' gs' (pub ++ more) l fd late' r rd.
Proof.
  intros (E & prev & js & Hp & Hg & H) Et Lg Hl Hc. split; auto. exists prev, js. rewrite Et. split; auto.
  split; [apply got_ext; auto|]. destruct (lr_group rd) as [[j c]|] eqn:Eg.
  - destruct H as (H0 & H1 & H2 & H3 & g & Hn & Hk). repeat (split; auto). eauto.
  - destruct H as (H0 & [H|(j & -> & Lj & Hle & H)]); (split; [auto|]); auto. right. exists j. split; auto. split; [lia|]. split; auto. destruct H; auto.
Qed.

(** Events that tell reader [r] nothing. *)
Definition unseen (r : nat) (e : levent) : Prop :=
  match e with (LFrame r', x) => r' <> r \/ answer x = false | _ => True end /\ forall b, found_event r b e = b.
Lemma answers_unseen tr e r : unseen r e -> answers (tr ++ [e]) r = answers tr r.
Proof.
  intros [H _]. rewrite answers_snoc. destruct e as [[] x]; try apply app_nil_r.
  destruct H as [H| ->]; [|rewrite andb_false_r; apply app_nil_r].
  destruct (Nat.eqb_spec r r0); [congruence|]. apply app_nil_r.
Qed.
Lemma found_unseen tr e r : unseen r e -> found (tr ++ [e]) r = found tr r.
Proof. intros [_ H]. rewrite found_snoc. auto. Qed.

Lemma rinv_same s s' tr e : rinv s tr -> (forall r, unseen r e) ->
  groups_grow (lc_groups s) (lc_groups s') -> lc_readers s' = lc_readers s -> ts_cons (lc_track s') = ts_cons (lc_track s) ->
  rinv s' (tr ++ [e]).
Proof.
  intros [R1 R2 R3 R4] Hu Hg Er Ec. split; rewrite ?Er, ?Ec; auto.
  - intros r rd H. rewrite published_snoc, (answers_unseen _ _ _ (Hu r)), (found_unseen _ _ _ (Hu r)).
    eapply rok_ext; [eauto|auto|apply Hg|apply cancelled_snoc|]. intros j c g _ Hj Hc. eapply grow_cons; eauto.
  - intros r H. rewrite (answers_unseen _ _ _ (Hu r)), (found_unseen _ _ _ (Hu r)). auto.
Qed.

Definition linv (s : lsys) (tr : list levent) : Prop := (exists sh, pinv s tr sh) /\ rinv s tr.

Lemma linv_same s s' tr e : linv s tr -> psilent e -> (forall r, unseen r e) -> lc_jobs s' = lc_jobs s ->
  ts_latest (lc_track s') = ts_latest (lc_track s) -> ts_prods (lc_track s') = ts_prods (lc_track s) ->
  lc_groups s' = lc_groups s -> lc_readers s' = lc_readers s -> ts_cons (lc_track s') = ts_cons (lc_track s) ->
  linv s' (tr ++ [e]).
Proof.
  intros [[sh P] R] Hp Hu E1 E2 E3 E4 E5 E6. split.
  - exists sh. eapply pinv_same; eauto. rewrite E4. apply P.
  - eapply rinv_same; eauto. rewrite E4. apply groups_grow_refl.
Qed.

Lemma linv_new : linv lsys_new [].
Proof.
  split.
  - exists []. split; cbn; auto.
    + intros [|[|p]]; cbn; split; auto; discriminate.
    + intros [|[|p]] q i (j & H & _); discriminate.
    + intros [|i] c k H; discriminate.
  - split; cbn; auto.
    + intros [|r] rd H; discriminate.
    + intros [|r] r' a b x H; discriminate.
Qed.

Lemma call_ev_same o x : (forall p y, o <> LUpdate p y) -> (forall p d, o <> LRaw p d) -> (forall p, o <> LStep p) -> psilent (o, x).
Proof.
  intros H1 H2 H3. destruct o; try (split; [intros l; reflexivity|exact I]).
  - destruct (H1 _ _ eq_refl).
  - destruct (H2 _ _ eq_refl).
  - destruct (H3 _ eq_refl).
Qed.
Ltac quiet := apply call_ev_same; discriminate.

Lemma unseen_other o x : (forall r, o <> LTrack r) -> (forall r, o <> LFrame r) -> (forall r, o <> LCancel r) -> forall r, unseen r (o, x).
Proof.
  intros H1 H2 H3 r. destruct o; try (split; [exact I|intros b; reflexivity]).
  - destruct (H1 _ eq_refl).
  - destruct (H2 _ eq_refl).
  - destruct (H3 _ eq_refl).
Qed.
Ltac blind := apply unseen_other; discriminate.

Lemma bad_silent o : psilent (o, LBad).
Proof. destruct o; split; try (intros l; reflexivity); exact I. Qed.
Lemma bad_unseen o r : unseen r (o, LBad).
Proof. destruct o; split; try exact I; cbn; auto; intros b; destruct (Nat.eqb _ _); auto. Qed.
Lemma linv_bad s tr o : linv s tr -> linv s (tr ++ [(o, LBad)]).
Proof. intros H. eapply linv_same; eauto using bad_silent, bad_unseen. Qed.

Lemma step_begin_any w m s tr o c p s' x : linv s tr -> (o = LUpdate p (match c with Pos x => x | _ => Place 0 0 0 end) /\ (exists y, c = Pos y) \/ exists d, c = Other d /\ o = LRaw p d) ->
  lstep w m s o = (s', x) -> linv s' (tr ++ [(o, x)]).
Proof.
  intros I Ho Hs.
  assert (E : lstep w m s o = if lfree s p then (set_job s p (Some (Job (data_of c) (pos_of c) LAppend1 0)), LUnit) else (s, LBad)).
  { destruct Ho as [[-> [y ->]]|(d & -> & ->)]; reflexivity. }
  rewrite E in Hs. destruct (lfree s p) eqn:F; injection Hs as <- <-; [|apply linv_bad; auto].
  destruct I as [[sh P] R]. split.
  - exists sh. eapply step_begin; eauto; destruct Ho as [[-> [y ->]]|(d & -> & ->)]; auto.
  - eapply rinv_same; eauto using groups_grow_refl. destruct Ho as [[-> [y ->]]|(d & -> & ->)]; blind.
Qed.

(** Clones, drops and finishes. *)
Lemma step_handle w m s tr o p s' x : linv s tr -> o = LClone p \/ o = LDrop p \/ o = LFinish p ->
  lstep w m s o = (s', x) -> linv s' (tr ++ [(o, x)]).
Proof.
  intros I Ho Hs. destruct (lfree s p) eqn:F;
    [|destruct Ho as [->|[->| ->]]; cbn [lstep] in Hs; unfold lhandle in Hs; rewrite F in Hs; injection Hs as <- <-; apply linv_bad; auto].
  pose proof (lfree_inv _ _ F) as [Fi Fj]. destruct I as [[sh P] R]. pose proof P as [P1 P2 P3 P4 P5 P6 P7].
  assert (Se : psilent (o, x)) by (destruct Ho as [->|[->| ->]]; quiet).
  assert (Su : forall r, unseen r (o, x)) by (destruct Ho as [->|[->| ->]]; blind).
  destruct Ho as [->|Ho].
  - cbn [lstep] in Hs. rewrite F in Hs. cbn [tstep] in Hs. unfold idle in Hs. rewrite Fi in Hs. injection Hs as <- <-.
    split; [|eapply rinv_same; eauto using groups_grow_refl]. exists sh.
    assert (On : forall q i, owns (lc_jobs s ++ [None]) q i <-> owns (lc_jobs s) q i).
    { intros q i. split; intros (j & Hj & H).
      - apply nth_error_split2 in Hj as [[_ Hj]|[_ Hj]]; [|discriminate]. exists j. auto.
      - exists j. rewrite nth_error_app1 by (apply nth_error_Some; congruence). auto. }
    split; cbn [lc_groups lc_track lc_jobs lwith_jobs lwith_track ts_prods twith_prods ts_latest];
      rewrite ?(published_silent _ _ Se), ?(calls_silent _ _ Se), ?app_length; cbn [length]; auto.
    + intros q. pose proof (P5 q) as J. rewrite get_app. destruct (Nat.eqb_spec q (length (ts_prods (lc_track s)))) as [->|N].
      * rewrite (proj2 (nth_error_None _ _)) in J by lia. destruct J as [J _]. rewrite <- P4 in J |- *. rewrite nth_last. split; [auto|discriminate].
      * destruct (Nat.lt_ge_cases q (length (lc_jobs s))).
        -- rewrite nth_error_app1 by auto. auto.
        -- rewrite (proj2 (nth_error_None (lc_jobs s) _)) in J by lia.
           rewrite (proj2 (nth_error_None (lc_jobs s ++ [None]) _)) by (rewrite app_length; cbn; lia). auto.
    + intros q q' i. rewrite !On. apply P6.
    + intros i c k H K. destruct (P7 _ _ _ H K) as (q & Hq). exists q. apply On. auto.
  - assert (E : exists t, s' = lwith_track s t /\ ts_latest t = ts_latest (lc_track s) /\ ts_prods t = set_nth p None (ts_prods (lc_track s)) /\ ts_cons t = ts_cons (lc_track s)).
    { destruct Ho as [->| ->]; cbn [lstep] in Hs; unfold lhandle in Hs; rewrite F in Hs; cbn [tstep] in Hs; unfold idle in Hs; rewrite Fi in Hs;
        injection Hs as <- <-; eexists; (split; [reflexivity|]); cbn; auto. }
    destruct E as (t & -> & El & Ep & Ec). split; [|eapply rinv_same; eauto using groups_grow_refl]. exists sh.
    split; cbn [lc_groups lc_track lc_jobs lwith_track]; rewrite ?(published_silent _ _ Se), ?(calls_silent _ _ Se), ?El, ?Ep, ?set_nth_length; auto.
    intros q. pose proof (P5 q) as J. destruct (Nat.eq_dec p q) as [<-|N].
    + rewrite (get_set_eq _ _ _ _ Fi). rewrite Fj in J |- *. destruct J as [-> _]. split; [auto|discriminate].
    + rewrite get_set_ne by auto. auto.
Qed.

Lemma step_new_reader w m s tr p s' x : linv s tr -> lstep w m s (LConsume p) = (s', x) -> linv s' (tr ++ [(LConsume p, x)]).
Proof.
  intros I Hs. cbn [lstep] in Hs. destruct (lfree s p) eqn:F; [|injection Hs as <- <-; apply linv_bad; auto].
  pose proof (lfree_inv _ _ F) as [Fi Fj]. cbn [tstep] in Hs. unfold idle in Hs. rewrite Fi in Hs. injection Hs as <- <-.
  destruct I as [[sh P] R]. split.
  - exists sh. eapply pinv_same; eauto; [quiet|apply P].
  - assert (Su : forall r, unseen r (LConsume p, LUnit)) by blind.
    destruct R as [R1 R2 R3 R4].
    split; cbn [lc_groups lc_track lc_readers lwith_track lwith_readers ts_cons twith_cons]; rewrite ?app_length; cbn [length]; try lia.
    + intros r rd Hr. rewrite published_snoc, (answers_unseen _ _ _ (Su r)), (found_unseen _ _ _ (Su r)).
      apply nth_error_split2 in Hr as [[Lr Hr]|[-> ->]].
      * pose proof (R2 _ _ Hr) as Hk. eapply rok_ext; eauto using cancelled_snoc.
        destruct Hk as (_ & prev & js & Hp & _). rewrite (get_app_old _ _ _ _ Hp). auto.
      * destruct (R3 _ (le_n _)) as [-> ->]. split; cbn; auto.
        exists None, []. rewrite get_app, <- R1, Nat.eqb_refl. repeat split; auto; constructor.
    + intros r Hr. rewrite (answers_unseen _ _ _ (Su r)), (found_unseen _ _ _ (Su r)). apply R3. lia.
    + intros r r' a b y Ha Hb Hx Hy.
      apply nth_error_split2 in Ha as [[La Ha]|[-> ->]]; [|discriminate].
      apply nth_error_split2 in Hb as [[Lb Hb]|[-> ->]]; [|discriminate]. eapply R4; eauto.
Qed.

Lemma Forall2_replace gs j g (g' : gsys) : nth_error gs j = Some g -> (forall x, lsh x g -> lsh x g') ->
  forall shapes, Forall2 lsh shapes gs -> Forall2 lsh shapes (set_nth j g' gs).
Proof.
  intros Hj H shapes F. destruct (nth_error shapes j) as [x|] eqn:E.
  - eapply Forall2_set_r; eauto. apply H. eapply Forall2_nth_error; eauto.
  - apply nth_error_None in E. rewrite (Forall2_length _ _ _ F) in E. assert (j < length gs) by (apply nth_error_Some; congruence). lia.
Qed.

Lemma shape_at s tr sh j g : pinv s tr sh -> nth_error (lc_groups s) j = Some g ->
  exists k c, nth_error sh j = Some (c, k) /\ nth_error (published tr) j = Some c /\ lsh (c, k) g.
Proof.
  intros [P1 P2 _ _ _ _ _] Hj. destruct (nth_error sh j) as [[c k]|] eqn:E.
  - exists k, c. split; auto. split; [|apply (Forall2_nth_error _ _ _ _ _ _ P2 E Hj)].
    rewrite <- P1, nth_error_map, E. reflexivity.
  - apply nth_error_None in E. rewrite (Forall2_length _ _ _ P2) in E. assert (j < length (lc_groups s)) by (apply nth_error_Some; congruence). lia.
Qed.

(** A reader takes the newest group.  [news]: the newest group is one it has not taken yet. *)
Lemma step_track w m s tr r s' x : linv s tr -> lstep w m s (LTrack r) = (s', x) ->
  linv s' (tr ++ [(LTrack r, x)]) /\
  lc_jobs s' = lc_jobs s /\ lc_latest s' = lc_latest s /\ ts_closed (lc_track s') = ts_closed (lc_track s) /\
  (forall prev rd, nth_error (lc_readers s) r = Some rd -> lr_group rd = None -> get (ts_cons (lc_track s)) r = Some prev ->
     ts_closed (lc_track s) = None ->
     (forall n, prev = Some (N.of_nat n) -> S n < length (lc_groups s)) -> lc_groups s <> [] ->
     x = LGroup /\ exists c, nth_error (lc_readers s') r = Some (LReader r (Some (pred (length (lc_groups s)), c)))) /\
  (answer x = false /\ x <> LPanic /\ (x = LGroup -> ts_closed (lc_track s) = None)).
Proof.
  intros I. cbn [lstep].
  destruct (nth_error (lc_readers s) r) as [rd|] eqn:Er;
    [|intros H; injection H as <- <-; split; [apply linv_bad; auto|conjs; auto; discriminate]].
  destruct rd as [tk [gr|]] eqn:Erd;
    [intros H; injection H as <- <-; split; [apply linv_bad; auto|conjs; auto; try discriminate]; intros prev rd0 E E'; injection E as <-; discriminate|].
  pose proof I as [[sh P] R]. pose proof R as [R1 R2 R3 R4].
  destruct (R2 _ _ Er) as (Et & prev & js & Hp & Hgot & Hg). cbn [lr_track lr_group] in Et, Hg. subst tk.
  destruct Hg as [Hf Hg].
  cbn [tstep]. rewrite Hp. unfold track_next.
  assert (Quiet : forall y, (forall r0, unseen r0 (LTrack r, y)) ->
     linv (lwith_track s (twith_cons (lc_track s) (set_nth r (Some prev) (ts_cons (lc_track s))))) (tr ++ [(LTrack r, y)])).
  { intros y Hy. assert (E : set_nth r (Some prev) (ts_cons (lc_track s)) = ts_cons (lc_track s)).
    { apply set_nth_same. apply get_Some. auto. }
    rewrite E. eapply linv_same; eauto. quiet. }
  assert (Un : forall y, (y = LEnd \/ (exists e, y = LErr e) \/ y = LPend) -> forall r0, unseen r0 (LTrack r, y)).
  { intros y [->|[[e ->]| ->]] r0; split; auto. }
  destruct (opt_gt (option_map g_seq (ts_latest (lc_track s))) prev || _) eqn:Ow; cycle 1.
  { assert (No : forall p0, ts_closed (lc_track s) = None -> Some prev = Some p0 -> (forall n, p0 = Some (N.of_nat n) -> S n < length (lc_groups s)) -> lc_groups s <> [] -> False).
    { intros p0 Ec E Hn Hne. injection E as <-. rewrite Ec, orb_false_r, (p_latest _ _ _ P) in Ow.
      destruct (length (lc_groups s)) as [|n] eqn:En; [apply length_zero_iff_nil in En; auto|]. cbn in Ow.
      destruct Hg as [[-> _]|(j & -> & _)]; [discriminate|]. specialize (Hn _ eq_refl). apply N.ltb_ge in Ow. lia. }
    destruct (tsys_alive (lc_track s)); intros H; injection H as <- <-.
    - split; [apply Quiet, Un; auto|]. conjs; auto; try discriminate. intros p0 rd0 _ _ E Ec Hn Hne. destruct (No p0 Ec E Hn Hne).
    - split; [apply Quiet, Un; eauto|]. conjs; auto; try discriminate. intros p0 rd0 _ _ E Ec Hn Hne. destruct (No p0 Ec E Hn Hne). }
  destruct (ts_closed (lc_track s)) as [[|e]|] eqn:Ecl;
    [intros H; injection H as <- <-; split; [apply Quiet, Un; eauto|conjs; auto; try discriminate; intros; discriminate]..|].
  rewrite orb_false_r in Ow. pose proof (p_latest _ _ _ P) as Tl. rewrite Tl in Ow |- *.
  destruct (length (lc_groups s)) as [|n] eqn:En; cbn [latest_of option_map] in *; [destruct prev; discriminate|].
  cbn [g_seq g_id lc_groups lwith_track].
  destruct (nth_error (lc_groups s) n) as [g|] eqn:Eg; [|apply nth_error_None in Eg; lia].
  destruct (shape_at _ _ _ _ _ P Eg) as (k & c & _ & Hc & Sg).
  pose proof (lsh_cons0 _ _ Sg) as K0.
  cbn [gstep]. rewrite K0. intros H. injection H as <- <-.
  assert (Lr : r < length (lc_readers s)) by (apply nth_error_Some; congruence).
  assert (Lc : length (gs_cons g) <> 0) by (apply get_lt in K0; lia).
  split; [|conjs; auto; try discriminate].
  2:{ intros _ rd0 _ _ _ _ _ _. split; auto. exists (length (gs_cons g)). cbn. apply nth_error_set_eq. auto. }
  set (g' := gwith_cons g (gs_cons g ++ [Some (GC 0 None)])).
  assert (Lj : forall i, In i js -> i < n).
  { intros i Hi. destruct Hg as [[_ ->]|(j & -> & Lj & Hle & _)]; [destruct Hi|].
    rewrite Forall_forall in Hle. specialize (Hle _ Hi). cbn in Ow. apply N.ltb_lt in Ow. lia. }
  assert (Se : psilent (LTrack r, LGroup)) by quiet.
  split.
  - exists sh. eapply pinv_same; eauto. cbn [lc_groups lwith_readers lwith_groups lwith_track].
    apply (Forall2_replace _ _ g); auto; [|apply P]. intros y Hy. apply lsh_cons; auto. apply get_app_old. auto.
  - assert (Old : forall r0 a, nth_error (set_nth r (LReader r (Some (n, length (gs_cons g)))) (lc_readers s)) r0 = Some a ->
       (r0 = r /\ a = LReader r (Some (n, length (gs_cons g)))) \/ (r0 <> r /\ nth_error (lc_readers s) r0 = Some a)).
    { intros r0 a Ha. destruct (Nat.eq_dec r0 r) as [->|Nr].
      - rewrite nth_error_set_eq in Ha by auto. injection Ha as <-. auto.
      - rewrite nth_error_set_ne in Ha by auto. auto. }
    assert (Au : forall r0, answers (tr ++ [(LTrack r, LGroup)]) r0 = answers tr r0) by (intros r0; rewrite answers_snoc; apply app_nil_r).
    split; cbn [lc_groups lc_track lc_readers lwith_track lwith_readers lwith_groups ts_cons twith_cons]; rewrite ?set_nth_length; auto.
    + intros r0 a Ha. rewrite (published_silent _ _ Se), Au, found_snoc. cbn [found_event]. apply Old in Ha as [[-> ->]|[Nr Ha]].
      * rewrite Nat.eqb_refl. split; auto. exists (Some (N.of_nat n)), js.
        rewrite (get_set_eq _ _ _ _ Hp). split; auto. split; auto. cbn [lr_group].
        split; auto. split; auto. split; [apply Forall_forall; auto|]. split; auto.
        exists g'. rewrite nth_error_set_eq by lia. split; auto. left. cbn [g' gs_cons gwith_cons]. rewrite get_app, Nat.eqb_refl. auto.
      * destruct (Nat.eqb_spec r0 r); [congruence|]. rewrite <- (app_nil_r (published tr)).
        eapply rok_ext; [eauto|rewrite get_set_ne by auto; auto|rewrite set_nth_length; auto|apply cancelled_snoc|].
        intros j c0 g0 _ Hj Hk. destruct (Nat.eq_dec j n) as [->|Nj].
        -- rewrite Eg in Hj. injection Hj as <-. exists g'. rewrite nth_error_set_eq by lia. split; auto.
           apply (clone_cons g (Some (GC 0 None)) 0); auto.
        -- exists g0. rewrite nth_error_set_ne by auto. auto.
    + intros r0 Hr0. rewrite Au, found_snoc. cbn [found_event]. destruct (Nat.eqb_spec r0 r); [lia|]. auto.
    + assert (Nu : forall r0 a, nth_error (lc_readers s) r0 = Some a -> lr_group a <> Some (n, length (gs_cons g))).
      { intros r0 a Ha Hx. destruct (R2 _ _ Ha) as (_ & prev0 & js0 & _ & _ & Hg0). rewrite Hx in Hg0.
        destruct Hg0 as (_ & _ & _ & _ & g0 & Hg0 & Hk0). rewrite Eg in Hg0. injection Hg0 as <-.
        apply (clone_cons g None 0) in Hk0 as [_ Hk0]. cbn in Hk0. auto. }
      intros r1 r2 a b y Ha Hb Hx Hy. apply Old in Ha as [[-> ->]|[Na Ha]]; apply Old in Hb as [[-> ->]|[Nb Hb]]; auto.
      * cbn in Hx. injection Hx as <-. exfalso. eapply Nu; eauto.
      * cbn in Hy. injection Hy as <-. exfalso. eapply Nu; eauto.
      * eapply R4; eauto.
Qed.

Lemma told_data c d x : (forall y, c = Pos y -> is_place y) -> data_of c = Some d ->
  x = match place_decode d with Some y => LGot y | None => LInvalidFrame end -> told c x.
Proof.
  intros Hp Hd ->. destruct c as [y|d0]; cbn [data_of] in Hd.
  - assert (d = place_encode y) as -> by congruence. rewrite (proj1 (on_wire_decode _ _) (encode_wire y (Hp _ eq_refl))). constructor. auto.
  - subst d0. destruct (place_decode d) eqn:E.
    + eapply ToldWire; eauto. apply on_wire_decode. auto.
    + eapply ToldInvalid; eauto. unfold place_decode in E. destruct (Nat.eqb_spec (length d) 12); [discriminate|auto].
Qed.

(** The reader reads its group's frame. *)
Lemma step_frame w m s tr r s' x : linv s tr -> positions tr -> lstep w m s (LFrame r) = (s', x) ->
  linv s' (tr ++ [(LFrame r, x)]) /\
  lc_jobs s' = lc_jobs s /\ lc_latest s' = lc_latest s /\ lc_track s' = lc_track s /\
  (x <> LPanic /\ x <> LEnd /\ forall e, x <> LErr e) /\
  forall rd j c, nth_error (lc_readers s) r = Some rd -> lr_group rd = Some (j, c) ->
    exists c0, nth_error (published tr) j = Some c0 /\ (x = LPend /\ calls tr <> [] \/ told c0 x).
Proof.
  intros I Ps. cbn [lstep].
  destruct (nth_error (lc_readers s) r) as [rd|] eqn:Er;
    [|intros H; injection H as <- <-; split; [apply linv_bad; auto|conjs; auto; discriminate]].
  destruct rd as [tk [[j c]|]] eqn:Erd;
    [|intros H; injection H as <- <-; split; [apply linv_bad; auto|conjs; auto; try discriminate]; intros rd0 j c E E'; injection E as <-; discriminate].
  pose proof I as [[sh P] R]. pose proof R as [R1 R2 R3 R4].
  destruct (R2 _ _ Er) as (Et & prev & js & Hp & Hgot & Hg). cbn [lr_track lr_group] in Et, Hg. subst tk.
  destruct Hg as (Hf & Hprev & Hjs & C0 & g & Hj & Hk). rewrite Hj.
  destruct (shape_at _ _ _ _ _ P Hj) as (k & c0 & Hsh & Hc0 & Sg).
  assert (Lj : j < length (lc_groups s)) by (apply nth_error_Some; congruence).
  assert (Lr : r < length (lc_readers s)) by (apply nth_error_Some; congruence).
  assert (X : exists y, get (gs_cons g) c = Some y /\ (y = GC 0 None \/ (y = GC 1 (Some (0, 0)) /\ gs_frames g <> []))).
  { destruct Hk as [Hk|[Hk Hk']]; eauto. }
  destruct X as (y & Hy & Hyy). cbn [gstep]. rewrite Hy.
  destruct (lsh_read _ _ _ _ Sg Hyy) as (z & Ez & Hz). rewrite Ez.
  assert (Others : forall r0 a t e, r0 <> r -> nth_error (lc_readers s) r0 = Some a ->
     rok (ts_cons (lc_track s)) (set_nth j (gwith_cons g (set_nth c t (gs_cons g))) (lc_groups s)) (published tr) (answers tr r0) (found tr r0) (cancelled_late (tr ++ [e]) r0) r0 a).
  { intros r0 a t e Nr Ha. rewrite <- (app_nil_r (published tr)). eapply rok_ext; [eauto|auto|rewrite set_nth_length; auto|apply cancelled_snoc|].
    intros j0 c1 g0 Hx Hj0 Hk0. destruct (Nat.eq_dec j0 j) as [->|Nj].
    - rewrite Hj in Hj0. injection Hj0 as <-. eexists. split; [apply nth_error_set_eq; auto|].
      assert (Nc : c <> c1). { intros ->. apply Nr. eapply R4; eauto. }
      unfold cons_ok in *. cbn [gs_cons gs_frames gwith_cons]. rewrite get_set_ne by auto. auto.
    - exists g0. rewrite nth_error_set_ne by auto. auto. }
  assert (Hgs : forall t, Forall2 lsh sh (set_nth j (gwith_cons g (set_nth c t (gs_cons g))) (lc_groups s))).
  { intros t. apply (Forall2_replace _ _ g); auto; [|apply P]. intros v Hv. apply lsh_cons; auto. rewrite get_set_ne by auto.
    apply (lsh_cons0 _ _ Hv). }
  assert (Fe : forall x0 r0, r0 <> r -> found (tr ++ [(LFrame r, x0)]) r0 = found tr r0 /\ answers (tr ++ [(LFrame r, x0)]) r0 = answers tr r0).
  { intros x0 r0 Nr. rewrite found_snoc, answers_snoc. cbn [found_event]. destruct (Nat.eqb_spec r0 r); [congruence|]. rewrite app_nil_r. auto. }
  assert (Pend : read_of c0 k = APending -> calls tr <> []).
  { intros E. assert (K : k <= 3).
    { unfold read_of in E. destruct (data_of c0); [destruct (Nat.leb_spec k 2)|destruct (Nat.leb_spec k 3)]; try discriminate; lia. }
    destruct (p_inc _ _ _ P _ _ _ Hsh K) as (q & jb & Hjb & _). pose proof (p_job _ _ _ P q) as J. rewrite Hjb in J.
    destruct J as (c1 & J & _). intros Ec. rewrite Ec in J. discriminate. }
  (* the answer is given *)
  assert (Done : forall x0, answer x0 = true -> told c0 x0 -> 
     linv (lwith_readers (lwith_groups s (set_nth j (gwith_cons g (set_nth c (Some z) (gs_cons g))) (lc_groups s))) (set_nth r (LReader r None) (lc_readers s))) (tr ++ [(LFrame r, x0)])).
  { intros x0 Ha Ht. assert (Se : psilent (LFrame r, x0)) by quiet. split.
    - exists sh. eapply pinv_same; eauto. apply Hgs.
    - assert (Old : forall r0 a, nth_error (set_nth r (LReader r None) (lc_readers s)) r0 = Some a ->
        (r0 = r /\ a = LReader r None) \/ (r0 <> r /\ nth_error (lc_readers s) r0 = Some a)).
      { intros r0 a Hra. destruct (Nat.eq_dec r0 r) as [->|Nr].
        - rewrite nth_error_set_eq in Hra by auto. injection Hra as <-. auto.
        - rewrite nth_error_set_ne in Hra by auto. auto. }
      split; cbn [lc_groups lc_track lc_readers lwith_readers lwith_groups]; rewrite ?set_nth_length; auto.
      + intros r0 a Hra. rewrite (published_silent _ _ Se). apply Old in Hra as [[-> ->]|[Nr Hra]].
        * rewrite answers_snoc, found_snoc. cbn [found_event]. rewrite Nat.eqb_refl, Ha. cbn [andb].
          split; auto. exists prev, (js ++ [j]). split; auto. split.
          -- destruct Hgot as [G1 G2]. split; [apply sorted_snoc; auto|]. apply Forall2_app; auto. constructor; auto. eauto.
          -- cbn [lr_group]. split; [destruct x0; auto; discriminate|]. right. exists j. rewrite set_nth_length. conjs; auto; [|right; eauto].
             apply Forall_app. split; auto. eapply Forall_impl; [|exact Hjs]. cbn. lia.
        * destruct (Fe x0 r0 Nr) as [-> ->]. apply Others; auto.
      + intros r0 Hr0. destruct (Fe x0 r0) as [-> ->]; [lia|]. auto.
      + intros r1 r2 a b y0 H1 H2 Hx Hy0. apply Old in H1 as [[-> ->]|[Na H1]]; [discriminate|].
        apply Old in H2 as [[-> ->]|[Nb H2]]; [discriminate|]. eapply R4; eauto. }
  assert (Pl : forall y0, c0 = Pos y0 -> is_place y0).
  { intros y0 ->. apply nth_error_In, published_in in Hc0 as (q & Hq). cbn in Hq. eapply Ps; eauto. }
  destruct (read_of c0 k) as [[b|]|e| |] eqn:Erd0.
  - (* the frame *)
    assert (Hd : data_of c0 = Some b).
    { unfold read_of in Erd0. destruct (data_of c0); [|destruct (Nat.leb k 3); discriminate].
      destruct (Nat.leb k 2); [discriminate|]. injection Erd0 as <-. auto. }
    pose proof (told_data c0 b _ Pl Hd eq_refl) as Ht.
    intros H. injection H as <- <-. split; [apply Done; auto; destruct (place_decode b); auto|].
    conjs; auto; try (destruct (place_decode b); discriminate).
    intros rd0 j0 c1 Hr0 Hx. injection Hr0 as <-. cbn in Hx. injection Hx as <- <-. exists c0. auto.
  - (* an empty group *)
    assert (Hd : c0 = Other None).
    { unfold read_of in Erd0. destruct c0 as [y0|[d|]]; cbn [data_of] in Erd0; auto; destruct (Nat.leb k 2); discriminate. }
    intros H. injection H as <- <-. split; [apply Done; auto; apply ToldEmpty; auto|].
    conjs; auto; try discriminate. intros rd0 j0 c1 Hr0 Hx. injection Hr0 as <-. cbn in Hx. injection Hx as <- <-. exists c0. split; auto. right. apply ToldEmpty. auto.
  - unfold read_of in Erd0. destruct (data_of c0); [destruct (Nat.leb k 2)|destruct (Nat.leb k 3)]; discriminate.
  - (* pending *)
    intros H. injection H as <- <-. split.
    + assert (Se : psilent (LFrame r, LPend)) by quiet. split.
      * exists sh. eapply pinv_same; eauto. apply Hgs.
      * assert (Su : unseen r (LFrame r, LPend)) by (split; [auto|intros b; cbn; rewrite Nat.eqb_refl; auto]).
        split; cbn [lc_groups lc_track lc_readers lwith_groups]; auto.
        -- intros r0 a Hra. rewrite (published_silent _ _ Se). destruct (Nat.eq_dec r0 r) as [->|Nr].
           ++ rewrite Er in Hra. injection Hra as <-. rewrite (answers_unseen _ _ _ Su), (found_unseen _ _ _ Su).
              split; auto. exists prev, js. split; auto. split; auto. cbn [lr_group]. conjs; auto.
              eexists. split; [apply nth_error_set_eq; auto|]. unfold cons_ok. cbn [gs_cons gs_frames gwith_cons].
              rewrite (get_set_eq _ _ _ _ Hy). destruct (Hz eq_refl) as [->|[-> F]]; auto.
           ++ destruct (Fe LPend r0 Nr) as [-> ->]. apply Others; auto.
        -- intros r0 Hr0. destruct (Fe LPend r0) as [-> ->]; [lia|]. auto.
    + conjs; auto; try discriminate. intros rd0 j0 c1 Hr0 Hx. injection Hr0 as <-. cbn in Hx. injection Hx as <- <-.
      exists c0. split; auto.
  - unfold read_of in Erd0. destruct (data_of c0); [destruct (Nat.leb k 2)|destruct (Nat.leb k 3)]; discriminate.
Qed.

Lemma step_cancel w m s tr r s' x : linv s tr -> lstep w m s (LCancel r) = (s', x) -> linv s' (tr ++ [(LCancel r, x)]).
Proof.
  intros I. cbn [lstep]. destruct (nth_error (lc_readers s) r) as [[tk gr]|] eqn:Er;
    [|intros H; injection H as <- <-; apply linv_bad; auto].
  intros H. injection H as <- <-. pose proof I as [[sh P] R]. pose proof R as [R1 R2 R3 R4].
  assert (Lr : r < length (lc_readers s)) by (apply nth_error_Some; congruence).
  assert (Se : psilent (LCancel r, LUnit)) by quiet. split.
  - exists sh. eapply pinv_same; eauto. apply P.
  - assert (Au : forall r0, answers (tr ++ [(LCancel r, LUnit)]) r0 = answers tr r0) by (intros r0; rewrite answers_snoc; apply app_nil_r).
    split; cbn [lc_groups lc_track lc_readers lwith_readers]; rewrite ?set_nth_length; auto.
    + intros r0 a Ha. rewrite (published_silent _ _ Se), Au, found_snoc. cbn [found_event].
      destruct (Nat.eqb_spec r0 r) as [->|N].
      * rewrite nth_error_set_eq in Ha by auto. injection Ha as <-.
        destruct (R2 _ _ Er) as (Et & prev & js & Hp & Hgot & Hg). split; auto. exists prev, js. split; auto. split; auto.
        cbn [lr_group] in *. split; auto. destruct gr as [[j c]|].
        -- right. destruct Hg as (Hf & -> & Hjs & _ & g & Hj & _). exists j. conjs; auto.
           ++ apply nth_error_Some. congruence.
           ++ eapply Forall_impl; [|exact Hjs]. cbn. lia.
           ++ left. apply cancelled_now. auto.
        -- destruct Hg as [_ [Hg|(j & H1 & H2 & H3 & H4)]]; auto. right. exists j. conjs; auto. destruct H4; auto using cancelled_snoc.
      * rewrite nth_error_set_ne in Ha by auto. rewrite <- (app_nil_r (published tr)). eapply rok_ext; eauto using cancelled_snoc.
    + intros r0 Hr0. rewrite Au, found_snoc. cbn [found_event]. destruct (Nat.eqb_spec r0 r); [lia|]. auto.
    + intros r1 r2 a b y Ha Hb Hx Hy. destruct (Nat.eq_dec r1 r) as [->|N1]; [rewrite nth_error_set_eq in Ha by auto; injection Ha as <-; discriminate|].
      destruct (Nat.eq_dec r2 r) as [->|N2]; [rewrite nth_error_set_eq in Hb by auto; injection Hb as <-; discriminate|].
      rewrite nth_error_set_ne in Ha, Hb by auto. eapply R4; eauto.
Qed.

(** * Executions *)
Lemma lrun_snoc w m ops o : forall s, lrun w m s (ops ++ [o]) =
  let (s1, tr) := lrun w m s ops in let (s2, x) := lstep w m s1 o in (s2, tr ++ [(o, x)]).
Proof.
  induction ops as [|a ops IH]; intros s; cbn [app lrun].
  - destruct (lstep w m s o). reflexivity.
  - destruct (lstep w m s a) as [s1 x]. rewrite IH. destruct (lrun w m s1 ops) as [s2 tr]. destruct (lstep w m s2 o). reflexivity.
Qed.

(** What operations other than calls leave alone. *)
Definition other (o : lop) : Prop := match o with LUpdate _ _ | LRaw _ _ | LStep _ => False | _ => True end.
Lemma step_other w m s o s' x : other o -> lstep w m s o = (s', x) ->
  lc_latest s' = lc_latest s /\ length (lc_groups s') = length (lc_groups s) /\
  (forall p j, nth_error (lc_jobs s) p = Some (Some j) -> nth_error (lc_jobs s') p = Some (Some j) /\
     forall t, get (ts_prods (lc_track s)) p = Some t -> get (ts_prods (lc_track s')) p = Some t) /\
  (x <> LUnit \/ (forall p, o <> LFinish p) -> ts_closed (lc_track s') = ts_closed (lc_track s)) /\
  length (lc_readers s') = length (lc_readers s) + match o, x with LConsume _, LUnit => 1 | _, _ => 0 end.
Proof.
  intros Ho.
  assert (Same : forall y, (forall p, (o, y) <> (LConsume p, LUnit)) -> (s, y) = (s', x) ->
    lc_latest s' = lc_latest s /\ length (lc_groups s') = length (lc_groups s) /\
    (forall p j, nth_error (lc_jobs s) p = Some (Some j) -> nth_error (lc_jobs s') p = Some (Some j) /\
       forall t, get (ts_prods (lc_track s)) p = Some t -> get (ts_prods (lc_track s')) p = Some t) /\
    (x <> LUnit \/ (forall p, o <> LFinish p) -> ts_closed (lc_track s') = ts_closed (lc_track s)) /\
    length (lc_readers s') = length (lc_readers s) + match o, x with LConsume _, LUnit => 1 | _, _ => 0 end).
  { intros y Hy E. injection E as <- <-. conjs; auto. destruct o; auto; destruct y; auto. destruct (Hy p eq_refl). }
  destruct o; try contradiction; cbn [lstep]; unfold lhandle.
  - destruct (lfree s p) eqn:F; [|apply Same; discriminate]. apply Same; discriminate.
  - destruct (lfree s p) eqn:F; [|apply Same; discriminate]. apply lfree_inv in F as [Fi Fj]. cbn [tstep]. unfold idle. rewrite Fi.
    intros H. injection H as <- <-. conjs; auto; cbn.
    intros q j Hj. rewrite nth_error_app1 by (apply nth_error_Some; congruence). split; auto. intros t Ht. apply get_app_old. auto.
  - destruct (lfree s p) eqn:F; [|apply Same; discriminate]. apply lfree_inv in F as [Fi Fj]. cbn [tstep]. unfold idle. rewrite Fi.
    intros H. injection H as <- <-. conjs; auto; cbn.
    intros q j Hj. split; auto. intros t Ht. rewrite get_set_ne; auto. congruence.
  - destruct (lfree s p) eqn:F; [|apply Same; discriminate]. apply lfree_inv in F as [Fi Fj]. cbn [tstep]. unfold idle. rewrite Fi.
    intros H. injection H as <- <-. conjs; auto; cbn.
    + intros q j Hj. split; auto. intros t Ht. rewrite get_set_ne; auto. congruence.
    + intros [H|H]; [congruence|]. destruct (H _ eq_refl).
  - destruct (lfree s p) eqn:F; [|apply Same; discriminate]. apply lfree_inv in F as [Fi Fj]. cbn [tstep]. unfold idle. rewrite Fi.
    intros H. injection H as <- <-. conjs; auto; cbn. rewrite app_length. auto.
  - destruct (nth_error (lc_readers s) r) as [[c [|]]|] eqn:Er; [apply Same; discriminate| |apply Same; discriminate].
    cbn [tstep]. destruct (get (ts_cons (lc_track s)) c) as [prev|]; cycle 1.
    { intros H. injection H as <- <-. cbn. conjs; auto. }
    destruct (track_next _ _ _ _) as [[a prev']|]; cycle 1.
    { intros H. injection H as <- <-. cbn. conjs; auto. }
    destruct a as [[gr|]|e| |]; try (intros H; injection H as <- <-; cbn; conjs; auto; fail).
    cbn [lc_groups lwith_track]. destruct (nth_error (lc_groups s) (g_id gr)) as [g|]; [|intros H; injection H as <- <-; cbn; conjs; auto].
    destruct (gstep w g (GCClone 0)) as [g' y]. intros H. injection H as <- <-. cbn. rewrite !set_nth_length. conjs; auto.
  - destruct (nth_error (lc_readers s) r) as [[c [[j gc]|]]|] eqn:Er; [|apply Same; discriminate..].
    destruct (nth_error (lc_groups s) j) as [g|]; [|apply Same; discriminate].
    destruct (gstep w g (GRead gc)) as [g' y].
    assert (E1 : forall y0, (lwith_groups s (set_nth j g' (lc_groups s)), y0) = (s', x) -> 
       lc_latest s' = lc_latest s /\ length (lc_groups s') = length (lc_groups s) /\
       (forall p j, nth_error (lc_jobs s) p = Some (Some j) -> nth_error (lc_jobs s') p = Some (Some j) /\
         forall t, get (ts_prods (lc_track s)) p = Some t -> get (ts_prods (lc_track s')) p = Some t) /\
       (x <> LUnit \/ (forall p, LFrame r <> LFinish p) -> ts_closed (lc_track s') = ts_closed (lc_track s)) /\
       length (lc_readers s') = length (lc_readers s) + 0).
    { intros y0 H. injection H as <- <-. cbn. rewrite set_nth_length. conjs; auto. }
    assert (E2 : forall y0, (lwith_readers (lwith_groups s (set_nth j g' (lc_groups s))) (set_nth r (LReader c None) (lc_readers s)), y0) = (s', x) -> 
       lc_latest s' = lc_latest s /\ length (lc_groups s') = length (lc_groups s) /\
       (forall p j, nth_error (lc_jobs s) p = Some (Some j) -> nth_error (lc_jobs s') p = Some (Some j) /\
         forall t, get (ts_prods (lc_track s)) p = Some t -> get (ts_prods (lc_track s')) p = Some t) /\
       (x <> LUnit \/ (forall p, LFrame r <> LFinish p) -> ts_closed (lc_track s') = ts_closed (lc_track s)) /\
       length (lc_readers s') = length (lc_readers s) + 0).
    { intros y0 H. injection H as <- <-. cbn. rewrite !set_nth_length. conjs; auto. }
    destruct y as [| | | | | |a]; try apply E1; destruct a as [[b|]|e| |]; try apply E1; apply E2.
  - destruct (nth_error (lc_readers s) r) as [[c gr]|]; [|apply Same; discriminate].
    intros H. injection H as <- <-. cbn. rewrite set_nth_length. conjs; auto.
Qed.

Lemma readers_snoc tr o x : readers (tr ++ [(o, x)]) = readers tr + match o, x with LConsume _, LUnit => 1 | _, _ => 0 end.
Proof. unfold readers. rewrite filter_app, app_length. cbn. destruct o; auto; destruct x; auto. Qed.

Record minv (s : lsys) (tr : list levent) : Prop := {
  m_inv : linv s tr;
  m_len : length (lc_groups s) <= length tr;
  m_readers : length (lc_readers s) = readers tr;
  m_open : unfinished tr -> ts_closed (lc_track s) = None }.

Lemma unfinished_snoc tr e : unfinished (tr ++ [e]) -> unfinished tr.
Proof. intros H p Hp. apply (H p), in_app_iff. auto. Qed.

Lemma step_any w m s tr o s' x : minv s tr -> bounded w (tr ++ [(o, x)]) -> positions (tr ++ [(o, x)]) -> lstep w m s o = (s', x) ->
  minv s' (tr ++ [(o, x)]).
Proof.
  intros [I Lg Rd Op] B Ps Hs. pose proof (bounded_snoc _ _ _ B) as B'. pose proof (positions_snoc _ _ Ps) as Ps'.
  assert (Oth : other o -> linv s' (tr ++ [(o, x)]) -> minv s' (tr ++ [(o, x)])).
  { intros Ho I'. destruct (step_other _ _ _ _ _ _ Ho Hs) as (_ & E2 & _ & E4 & E5). split; auto.
    - rewrite E2, app_length. lia.
    - rewrite readers_snoc, E5. auto.
    - intros U. rewrite E4; [apply Op; eapply unfinished_snoc; eauto|].
      destruct x; try (left; discriminate). right. intros p ->. apply (U p), in_app_iff. cbn. auto. }
  destruct o; try (apply Oth; [exact Logic.I|]); clear Oth.
  - split.
    + eapply (step_begin_any w m s tr (LUpdate p x0) (Pos x0)); eauto.
    + cbn [lstep] in Hs. destruct (lfree s p); injection Hs as <- <-; cbn; rewrite app_length; lia.
    + rewrite readers_snoc, Nat.add_0_r. cbn [lstep] in Hs. destruct (lfree s p); injection Hs as <- <-; auto.
    + intros U. apply unfinished_snoc in U. cbn [lstep] in Hs. destruct (lfree s p); injection Hs as <- <-; auto.
  - split.
    + eapply (step_begin_any w m s tr (LRaw p d) (Other d)); eauto.
    + cbn [lstep] in Hs. destruct (lfree s p); injection Hs as <- <-; cbn; rewrite app_length; lia.
    + rewrite readers_snoc, Nat.add_0_r. cbn [lstep] in Hs. destruct (lfree s p); injection Hs as <- <-; auto.
    + intros U. apply unfinished_snoc in U. cbn [lstep] in Hs. destruct (lfree s p); injection Hs as <- <-; auto.
  - cbn [lstep] in Hs. destruct (nth_error (lc_jobs s) p) as [[j|]|] eqn:Ej; cycle 1.
    1,2: injection Hs as <- <-; split; [apply linv_bad; auto|rewrite app_length; lia|rewrite readers_snoc; cbn; lia|intros U; apply Op; eapply unfinished_snoc; eauto].
    destruct I as [[sh P] R].
    pose proof (step_call w m s tr sh p j P (bounded_fits _ _ B')) as H. rewrite Hs in H.
    destruct H as ([sh' P'] & Gg & Er & Ec & Ecl & Hst); [destruct B' as (_ & _ & B'); lia|auto|].
    assert (R' : rinv s' (tr ++ [(LStep p, x)])) by (eapply rinv_same; eauto; blind).
    split; [split; eauto| | |].
    + rewrite <- (Forall2_length _ _ _ (p_groups _ _ _ P')), <- (map_length fst), (p_fst _ _ _ P'), published_snoc, <- (p_fst _ _ _ P), !app_length, map_length.
      rewrite (Forall2_length _ _ _ (p_groups _ _ _ P)). cbn [length].
      pose proof (p_job _ _ _ P p) as J. rewrite Ej in J. destruct J as (c & Jc & _). rewrite Jc. destruct x; cbn; lia.
    + rewrite readers_snoc, Er. rewrite Rd. lia.
    + intros U. rewrite Ecl. apply Op. eapply unfinished_snoc; eauto.
  - cbn [lstep] in Hs. destruct (lfree s p); injection Hs as <- <-; [|apply linv_bad; auto]. eapply linv_same; eauto; [quiet|blind].
  - eapply step_handle; eauto.
  - eapply step_handle; eauto.
  - eapply step_handle; eauto.
  - eapply step_new_reader; eauto.
  - eapply step_track; eauto.
  - eapply step_frame; eauto.
  - eapply step_cancel; eauto.
Qed.

Lemma minv_new : minv lsys_new [].
Proof. split; cbn; auto using linv_new. Qed.

Lemma minv_run w m ops : forall s tr, lrun w m lsys_new ops = (s, tr) -> bounded w tr -> positions tr -> minv s tr.
Proof.
  induction ops as [|o ops IH] using rev_ind; intros s tr E B Ps.
  - injection E as <- <-. apply minv_new.
  - rewrite lrun_snoc in E. destruct (lrun w m lsys_new ops) as [s1 tr1]. destruct (lstep w m s1 o) as [s2 x] eqn:Es.
    injection E as <- <-. eapply step_any; eauto. apply IH; eauto using bounded_snoc, positions_snoc.
Qed.

(** * What readers are told *)
Lemma answers_run w m ops s tr r : lrun w m lsys_new ops = (s, tr) -> bounded w tr -> positions tr ->
  exists js, StronglySorted lt js /\ Forall2 (fun j x => exists c, nth_error (published tr) j = Some c /\ told c x) js (answers tr r).
Proof.
  intros E B Ps. destruct (m_inv _ _ (minv_run _ _ _ _ _ E B Ps)) as [_ [R1 R2 R3 R4]].
  destruct (nth_error (lc_readers s) r) as [rd|] eqn:Er.
  - destruct (R2 _ _ Er) as (_ & prev & js & _ & Hg & _). exists js. exact Hg.
  - apply nth_error_None in Er. destruct (R3 _ Er) as [-> _]. exists []. split; constructor.
Qed.

(** Readers never crash, and fail only with the track. *)
Lemma readers_ok w m ops s tr r : lrun w m lsys_new ops = (s, tr) -> bounded w tr -> positions tr ->
  (forall x, In (LTrack r, x) tr -> answer x = false /\ x <> LPanic) /\
  (forall x, In (LFrame r, x) tr -> x <> LPanic /\ x <> LEnd /\ forall e, x <> LErr e).
Proof.
  revert s tr. induction ops as [|o ops IH] using rev_ind; intros s tr E B Ps.
  - injection E as <- <-. split; intros x [].
  - rewrite lrun_snoc in E. destruct (lrun w m lsys_new ops) as [s1 tr1] eqn:E1. destruct (lstep w m s1 o) as [s2 x] eqn:Es.
    injection E as <- <-. pose proof (bounded_snoc _ _ _ B) as B'. pose proof (positions_snoc _ _ Ps) as Ps'.
    pose proof (minv_run _ _ _ _ _ E1 B' Ps') as [I _ _ _]. destruct (IH _ _ eq_refl B' Ps') as [H1 H2]. split; intros y Hy;
    apply in_app_iff in Hy as [Hy|[Hy|[]]]; auto; injection Hy as -> ->.
    + destruct (step_track _ _ _ _ _ _ _ I Es) as (_ & _ & _ & _ & _ & ? & ? & _). auto.
    + destruct (step_frame _ _ _ _ _ _ _ I Ps' Es) as (_ & _ & _ & _ & ? & _). auto.
Qed.

Lemma told_unique c x y : told c x -> told c y -> x = y.
Proof.
  intros H H'. inversion H; inversion H'; subst; try congruence.
  - injection H3 as <-. apply on_wire_decode in H1, H4. congruence.
  - injection H3 as <-. apply on_wire_decode in H1. unfold place_decode in H1. destruct (Nat.eqb_spec (length d) 12); congruence.
  - injection H3 as <-. apply on_wire_decode in H4. unfold place_decode in H4. destruct (Nat.eqb_spec (length d) 12); congruence.
Qed.

(** * The newest *)
Lemma newest_last tr l c : published tr = l ++ [c] -> newest tr = Some c.
Proof. intros E. unfold newest. rewrite E, rev_app_distr. reflexivity. Qed.
Lemma newest_some tr c : newest tr = Some c -> exists l, published tr = l ++ [c].
Proof.
  unfold newest. intros H. destruct (rev (published tr)) as [|c' l] eqn:E; [discriminate|]. injection H as ->.
  exists (rev l). rewrite <- (rev_involutive (published tr)), E. reflexivity.
Qed.
Lemma newest_same tr e : psilent e -> newest (tr ++ [e]) = newest tr.
Proof. intros H. unfold newest. rewrite published_silent; auto. Qed.

Lemma fresh_reads w m s tr r rd : minv s tr -> positions tr -> ts_closed (lc_track s) = None -> nth_error (lc_readers s) r = Some rd -> 
  found tr r = false -> forall c, newest tr = Some c ->
  exists prev js, got (published tr) js (answers tr r) /\ get (ts_cons (lc_track s)) r = Some prev /\
    ((prev <> None /\ (cancelled_late tr r \/ exists js0, js = js0 ++ [pred (length (published tr))])) \/
     exists x s', lrun w m s [LTrack r; LFrame r] = (s', [(LTrack r, LGroup); (LFrame r, x)]) /\ (told c x \/ x = LPend /\ calls tr <> [])).
Proof.
  intros [I Lg Rd Op] Ps Cl Er Fd c Hc. pose proof I as [[sh P] [R1 R2 R3 R4]].
  destruct (R2 _ _ Er) as (_ & prev & js & Hp & Hg & H). exists prev, js. split; auto. split; auto.
  assert (Lp : length (published tr) = length (lc_groups s)).
  { rewrite <- (p_fst _ _ _ P), map_length. apply (Forall2_length _ _ _ (p_groups _ _ _ P)). }
  destruct (newest_some _ _ Hc) as [l El]. rewrite El, app_length in Lp. cbn in Lp.
  destruct (lr_group rd) as [[j g]|] eqn:Eg; [destruct H; congruence|]. destruct H as [_ H].
  assert (Go : (forall n, prev = Some (N.of_nat n) -> S n < length (lc_groups s)) -> 
    exists x s', lrun w m s [LTrack r; LFrame r] = (s', [(LTrack r, LGroup); (LFrame r, x)]) /\ (told c x \/ x = LPend /\ calls tr <> [])).
  { intros Hn. cbn [lrun]. destruct (lstep w m s (LTrack r)) as [s1 x1] eqn:E1.
    destruct (step_track _ _ _ _ _ _ _ I E1) as (I1 & _ & _ & _ & Hx & _).
    destruct (Hx prev rd Er Eg Hp Cl Hn) as (-> & gc & Hr1). { intros E0. rewrite E0 in Lp. cbn in Lp. lia. }
    destruct (lstep w m s1 (LFrame r)) as [s2 x2] eqn:E2.
    destruct (step_frame w m s1 (tr ++ [(LTrack r, LGroup)]) r s2 x2 I1) as (_ & _ & _ & _ & _ & Hf); auto.
    { intros p y Hy. apply in_app_iff in Hy as [Hy|[Hy|[]]]; [|discriminate]. eauto. }
    destruct (Hf _ _ _ Hr1 eq_refl) as (c0 & Hc0 & Ht). rewrite published_silent, calls_silent in * by quiet.
    rewrite El, <- Lp, Nat.add_1_r in Hc0. cbn [pred] in Hc0. rewrite nth_last in Hc0. injection Hc0 as <-.
    exists x2, s2. split; auto. destruct Ht; auto. }
  destruct H as [[-> ->]|(j & -> & Lj & Hle & Hl)].
  - right. apply Go. discriminate.
  - destruct (Nat.eq_dec (S j) (length (lc_groups s))) as [E|N].
    + left. rewrite El, app_length. cbn [length]. rewrite Lp, <- E. split; [discriminate|auto].
    + right. apply Go. intros n En. injection En as En. lia.
Qed.

Lemma reader_exists s tr r : minv s tr -> r < readers tr -> exists rd, nth_error (lc_readers s) r = Some rd.
Proof.
  intros [_ _ Rd _] H. rewrite <- Rd in H. apply nth_error_Some in H. destruct (nth_error (lc_readers s) r); [eauto|congruence].
Qed.

Lemma fresh_run w m ops s tr r c : lrun w m lsys_new ops = (s, tr) -> bounded w tr -> positions tr -> unfinished tr ->
  r < readers tr -> found tr r = false -> ~ cancelled_late tr r -> newest tr = Some c ->
  (exists l x, answers tr r = l ++ [x] /\ told c x) \/
  exists x s', lrun w m s [LTrack r; LFrame r] = (s', [(LTrack r, LGroup); (LFrame r, x)]) /\ (told c x \/ x = LPend /\ calls tr <> []).
Proof.
  intros E B Ps U Lr Fd Nc Hc. pose proof (minv_run _ _ _ _ _ E B Ps) as M. destruct (reader_exists _ _ _ M Lr) as [rd Er].
  destruct (fresh_reads w m s tr r rd M Ps (m_open _ _ M U) Er Fd c Hc) as (prev & js & [_ G] & _ & [[_ [H|[js0 ->]]]|H]); auto; [contradiction|].
  left. apply Forall2_app_inv_l in G as (l & l' & _ & G & ->). inversion G as [|? x ? ? (c0 & Hc0 & Ht) G']; subst. inversion G'; subst.
  exists l, x. split; auto. destruct (newest_some _ _ Hc) as [l0 El]. rewrite El, app_length, Nat.add_1_r in Hc0. cbn [pred length] in Hc0.
  rewrite nth_last in Hc0. injection Hc0 as ->. auto.
Qed.

(** * One call at a time *)
Definition oinv (s : lsys) (tr : list levent) : Prop :=
  (calls tr = [] /\ option_map Pos (lc_latest s) = newest tr) \/
  exists p x j, calls tr = [(p, Pos x)] /\ nth_error (lc_jobs s) p = Some (Some j) /\
    match jb_stage j with
    | LAppend1 => option_map Pos (lc_latest s) = newest tr
    | LAppend2 => option_map Pos (lc_latest s) = newest tr /\ get (ts_prods (lc_track s)) p = Some (Appending (N.of_nat (length (lc_groups s))))
    | _ => newest tr = Some (Pos x)
    end.

Lemma one_snoc tr e : one_at_a_time (tr ++ [e]) -> one_at_a_time tr.
Proof. intros H b p x a ->. apply (H b p x (a ++ [e])). rewrite <- app_assoc. reflexivity. Qed.
Lemma no_raw_snoc tr e : no_raw (tr ++ [e]) -> no_raw tr.
Proof. intros H p d Hp. apply (H p d), in_app_iff. auto. Qed.

Lemma oinv_other w m s tr o s' x : other o -> linv s tr -> lstep w m s o = (s', x) -> oinv s tr -> oinv s' (tr ++ [(o, x)]).
Proof.
  intros Ho [[sh P] _] Hs O. destruct (step_other _ _ _ _ _ _ Ho Hs) as (E1 & E2 & E3 & _).
  assert (Se : psilent (o, x)) by (apply call_ev_same; intros; intros ->; exact Ho).
  destruct O as [[O1 O2]|(p & y & j & O1 & O2 & O3)].
  - left. rewrite calls_silent, newest_same, E1 by auto. auto.
  - right. exists p, y, j. rewrite calls_silent, newest_same, E1, E2 by auto. destruct (E3 _ _ O2) as [Hj Hp]. split; auto. split; auto.
    destruct (jb_stage j); auto. destruct O3. auto.
Qed.

Lemma step_one w m s tr o s' x : minv s tr -> bounded w tr -> one_at_a_time (tr ++ [(o, x)]) -> no_raw (tr ++ [(o, x)]) ->
  lstep w m s o = (s', x) -> oinv s tr -> oinv s' (tr ++ [(o, x)]) /\ (ts_closed (lc_track s) = None -> forall p, (o, x) <> (LStep p, LPanic)).
Proof.
  intros [I Lg Rd Op] B One Nr Hs O.
  assert (Bad : x = LBad -> s' = s -> oinv s' (tr ++ [(o, x)])).
  { intros -> ->. destruct O as [[O1 O2]|(p & y & j & O1 & O2 & O3)].
    - left. rewrite calls_silent, newest_same by apply bad_silent. auto.
    - right. exists p, y, j. rewrite calls_silent, newest_same by apply bad_silent. auto. }
  destruct o; [| | |split; [|discriminate]..].
  - split; [|discriminate]. cbn [lstep] in Hs. destruct (lfree s p) eqn:F; injection Hs as <- <-; [|auto].
    assert (C0 : calls tr = []) by (apply (One tr p x0 []); auto).
    destruct O as [[O1 O2]|(q & y & j & O1 & _)]; [|congruence].
    right. exists p, x0. eexists. rewrite calls_snoc, C0. cbn [call_event]. split; auto.
    apply lfree_inv in F as [_ Fj]. cbn [lc_jobs set_job lwith_jobs]. rewrite nth_error_set_eq by (apply nth_error_Some; congruence). split; [reflexivity|].
    cbn [jb_stage lc_latest set_job lwith_jobs]. unfold newest in *. rewrite published_snoc, app_nil_r. auto.
  - split; [|discriminate]. cbn [lstep] in Hs. destruct (lfree s p) eqn:F; injection Hs as <- <-; [|auto].
    exfalso. apply (Nr p d), in_app_iff. cbn. auto.
  - cbn [lstep] in Hs. destruct (nth_error (lc_jobs s) p) as [[j|]|] eqn:Ej; cycle 1.
    1,2: injection Hs as <- <-; split; [auto|discriminate].
    destruct I as [[sh P] R].
    pose proof (p_job _ _ _ P p) as J. rewrite Ej in J. destruct J as (c & Jc & Jd & Jp & Js).
    destruct O as [[O1 O2]|(q & y & j' & O1 & O2 & O3)]; [rewrite O1 in Jc; discriminate|].
    rewrite O1, call_of_cons in Jc. destruct (Nat.eqb_spec q p) as [->|Nq]; [|discriminate]. injection Jc as <-.
    rewrite Ej in O2. injection O2 as <-.
    pose proof (step_call w m s tr sh p j P (bounded_fits _ _ B)) as H. rewrite Hs in H.
    destruct H as ([sh' P'] & Gg & Er & Ec & Ecl & Hst); [destruct B as (_ & _ & B); lia|auto|].
    assert (Lp : p < length (lc_jobs s)) by (apply nth_error_Some; congruence).
    assert (Mid : x = LUnit -> lc_latest s' = lc_latest s -> newest tr = Some (Pos y) ->
       (exists next, past next = true /\ lc_jobs s' = set_nth p (Some (Job (jb_data j) (jb_pos j) next (jb_group j))) (lc_jobs s)) ->
       oinv s' (tr ++ [(LStep p, x)])).
    { intros -> El Hn (next & Hp & Hj). right. exists p, y. eexists. rewrite calls_silent, newest_same by (split; [reflexivity|exact Logic.I]).
      split; auto. rewrite Hj, nth_error_set_eq by auto. split; [reflexivity|]. cbn [jb_stage]. destruct next; try discriminate; auto. }
    destruct (jb_stage j) eqn:Est; cycle 2.
    1-4: destruct Hst as (-> & El & Hn); split; [auto|discriminate].
    + destruct Hst as (-> & El & Ej' & _). split; [|discriminate]. left. rewrite calls_snoc, O1. cbn. rewrite Nat.eqb_refl. cbn. split; auto.
      rewrite El, Jp. unfold newest in *. rewrite published_snoc, app_nil_r. auto.
    + destruct Hst as (-> & El & Eg & Ep & Ej'). split; [|discriminate]. right. exists p, y. eexists.
      rewrite calls_silent, newest_same by (split; [reflexivity|exact Logic.I]). split; auto.
      rewrite Ej', nth_error_set_eq by auto. split; [reflexivity|]. cbn [jb_stage]. rewrite El, Ep, Eg. split; auto.
      eapply get_set_eq; eauto.
    + destruct O3 as [O3 O4]. destruct Hst as (El & [(-> & g' & Ej')|(-> & Ej' & Eg & Hpan)]).
      * split; [|discriminate]. right. exists p, y. eexists. rewrite calls_snoc. cbn [call_event]. split; auto.
        rewrite Ej', nth_error_set_eq by auto. split; [reflexivity|]. cbn [jb_stage]. rewrite Jd. cbn [data_of].
        apply (newest_last _ (published tr)). rewrite published_snoc, O1, call_of_cons, Nat.eqb_refl. reflexivity.
      * split; [|intros Cl; destruct Hpan; congruence]. left. rewrite calls_snoc, O1. cbn. rewrite Nat.eqb_refl. cbn. split; auto.
        rewrite El. unfold newest in *. rewrite published_snoc, app_nil_r. auto.
  - eapply oinv_other; eauto; exact Logic.I.
  - eapply oinv_other; eauto; exact Logic.I.
  - eapply oinv_other; eauto; exact Logic.I.
  - eapply oinv_other; eauto; exact Logic.I.
  - eapply oinv_other; eauto; exact Logic.I.
  - eapply oinv_other; eauto; exact Logic.I.
  - eapply oinv_other; eauto; exact Logic.I.
  - eapply oinv_other; eauto; exact Logic.I.
Qed.

Lemma one_run w m ops : forall s tr, lrun w m lsys_new ops = (s, tr) -> bounded w tr -> positions tr -> one_at_a_time tr -> no_raw tr ->
  oinv s tr /\ (unfinished tr -> forall p, ~ In (LStep p, LPanic) tr).
Proof.
  induction ops as [|o ops IH] using rev_ind; intros s tr E B Ps One Nr.
  - injection E as <- <-. split; [left; auto|intros _ p []].
  - rewrite lrun_snoc in E. destruct (lrun w m lsys_new ops) as [s1 tr1] eqn:E1. destruct (lstep w m s1 o) as [s2 x] eqn:Es.
    injection E as <- <-. pose proof (bounded_snoc _ _ _ B) as B'. pose proof (positions_snoc _ _ Ps) as Ps'.
    pose proof (minv_run _ _ _ _ _ E1 B' Ps') as M.
    destruct (IH _ _ eq_refl B' Ps' (one_snoc _ _ One) (no_raw_snoc _ _ Nr)) as [O Hp].
    destruct (step_one _ _ _ _ _ _ _ M B' One Nr Es O) as [O' Hx]. split; auto.
    intros U p Hin. apply unfinished_snoc in U. apply in_app_iff in Hin as [Hin|[Hin|[]]]; [apply (Hp U p Hin)|].
    apply (Hx (m_open _ _ M U) p Hin).
Qed.

Lemma latest_run w m ops s tr p o : lrun w m lsys_new ops = (s, tr) -> bounded w tr -> positions tr -> one_at_a_time tr -> no_raw tr ->
  calls tr = [] -> lstep w m s (LLatest p) = (s, LPos o) ->
  option_map Pos o = newest tr /\
  (unfinished tr -> forall x, o = Some x -> exists s', lrun w m s [LConsume p; LTrack (readers tr); LFrame (readers tr)] =
    (s', [(LConsume p, LUnit); (LTrack (readers tr), LGroup); (LFrame (readers tr), LGot x)])).
Proof.
  intros E B Ps One Nr C0 Hl. pose proof (minv_run _ _ _ _ _ E B Ps) as M. destruct (one_run _ _ _ _ _ E B Ps One Nr) as [O _].
  destruct O as [[_ O]|(q & y & j & O & _)]; [|congruence].
  cbn [lstep] in Hl. destruct (lfree s p) eqn:F; [|discriminate]. injection Hl as <-. split; auto.
  intros U x Hx. rewrite Hx in O. cbn in O.
  change (exists s', lrun w m s (LConsume p :: [LTrack (readers tr); LFrame (readers tr)]) = (s', [(LConsume p, LUnit); (LTrack (readers tr), LGroup); (LFrame (readers tr), LGot x)])).
  cbn [lrun]. destruct (lstep w m s (LConsume p)) as [s1 x1] eqn:E1.
  pose proof (lfree_inv _ _ F) as [Fi _].
  assert (x1 = LUnit) as ->.
  { cbn [lstep] in E1. rewrite F in E1. cbn [tstep] in E1. unfold idle in E1. rewrite Fi in E1. congruence. }
  pose proof M as [I Lg Rd Op].
  pose proof (step_new_reader _ _ _ _ _ _ _ I E1) as I1.
  destruct (step_other w m s (LConsume p) s1 LUnit Logic.I E1) as (_ & Eg & _ & Ec & Er).
  assert (M1 : minv s1 (tr ++ [(LConsume p, LUnit)])).
  { split; auto.
    - rewrite Eg, app_length. lia.
    - rewrite readers_snoc, Er, Rd. auto.
    - intros _. rewrite Ec; auto. right. discriminate. }
  assert (Ps1 : positions (tr ++ [(LConsume p, LUnit)])).
  { intros q y Hy. apply in_app_iff in Hy as [Hy|[Hy|[]]]; [eauto|discriminate]. }
  destruct (nth_error (lc_readers s1) (readers tr)) as [rd|] eqn:Erd; [|apply nth_error_None in Erd; lia].
  destruct I as [_ [_ _ R3 _]]. destruct (R3 (readers tr)) as [An Fd]; [lia|].
  assert (Su : unseen (readers tr) (LConsume p, LUnit)) by blind.
  assert (Se : psilent (LConsume p, LUnit)) by quiet.
  destruct (fresh_reads w m s1 _ (readers tr) rd M1 Ps1) with (c := Pos x) as (prev & js & Hg & Hp & H).
  - rewrite Ec; auto. right. discriminate.
  - auto.
  - rewrite (found_unseen _ _ _ Su). auto.
  - rewrite newest_same; auto.
  - rewrite (answers_unseen _ _ _ Su), An in Hg. destruct Hg as [_ Hg]. inversion Hg; subst js.
    assert (Pn : prev = None).
    { cbn [lstep] in E1. rewrite F in E1. cbn [tstep] in E1. unfold idle in E1. rewrite Fi in E1. injection E1 as <-.
      cbn [lc_track lwith_readers lwith_track ts_cons twith_cons] in Hp. rewrite get_app in Hp.
      assert (L1 : length (ts_cons (lc_track s)) = readers tr) by (rewrite <- Rd; apply (m_inv _ _ M)).
      rewrite L1, Nat.eqb_refl in Hp. congruence. }
    destruct H as [[H _]|(y & s2 & Hr & Ht)].
    + congruence.
    + rewrite calls_silent, C0 in Ht by auto. destruct Ht as [Ht|[_ Ht]]; [|congruence].
      assert (y = LGot x) as -> by (eapply told_unique; [eauto|constructor; auto]).
      exists s2. cbn [lrun] in Hr. destruct (lstep w m s1 _) as [s3 x3]. destruct (lstep w m s3 _) as [s4 x4]. congruence.
Qed.
