(** The catalog track: content of publications, and what readers get. *)
From Coq Require Import NArith ZArith List Lia Bool Arith Sorted.
From Coq Require Import Init.Byte Strings.Byte.
From Verif.Model Require Import Base ErrorCode Stream Frame FrameSys GroupSys TrackSys Media Catalog.
From Verif.Spec Require Import CatalogSpec.
From Verif.Proofs Require Import BaseP TableP MediaP.
Import ListNotations.
Open Scope nat_scope.

Section CatalogP.
Context {V A L : Type} (veq : V -> V -> bool) (aeq : A -> A -> bool).
Notation catalog := (catalog V A L).
Context (json : catalog -> bytes) (parse : bytes -> option catalog).
Notation cevent := (cop V A L * cout V A L)%type.
Notation apply := (apply veq aeq).
Notation describes := (describes veq aeq).
Notation cstep := (cstep veq aeq json parse).
Notation crun := (crun veq aeq json parse).

Ltac conjs := repeat match goal with |- _ /\ _ => split end.

(** * Content *)
Definition cat_of (init : catalog) (ds : list (change V A L)) : catalog := fold_left (fun c d => apply d c) ds init.

Lemma cat_of_snoc init ds d : cat_of init (ds ++ [d]) = apply d (cat_of init ds).
Proof. unfold cat_of. rewrite fold_left_app. reflexivity. Qed.

Lemma filter_filter {B} (f g : B -> bool) l : filter f (filter g l) = filter (fun x => g x && f x) l.
Proof. induction l as [|x l IH]; cbn; auto. destruct (g x); cbn; [destruct (f x)|]; rewrite IH; auto. Qed.

Lemma stays_v_snoc later (d : change V A L) v : stays_v veq (later ++ [d]) v = stays_v veq later v && stays_v veq [d] v.
Proof. unfold stays_v. rewrite forallb_app. reflexivity. Qed.
Lemma stays_a_snoc later (d : change V A L) a : stays_a aeq (later ++ [d]) a = stays_a aeq later a && stays_a aeq [d] a.
Proof. unfold stays_a. rewrite forallb_app. reflexivity. Qed.

Lemma filter_true {B} (f : B -> bool) l : (forall x, f x = true) -> filter f l = l.
Proof. intros H. induction l; cbn; auto. rewrite H, IHl. reflexivity. Qed.

Lemma standing_v_snoc ds (d : change V A L) : standing_v veq (ds ++ [d]) =
  filter (stays_v veq [d]) (standing_v veq ds) ++ match d with AddV v => [v] | Set_ c => ct_video c | _ => [] end.
Proof.
  induction ds as [|e ds IH]; cbn [app standing_v].
  - rewrite app_nil_r. cbn [filter app]. apply filter_true. reflexivity.
  - rewrite IH, filter_app, app_assoc, filter_filter. f_equal. f_equal.
    apply filter_ext. intros v. apply stays_v_snoc.
Qed.
Lemma standing_a_snoc ds (d : change V A L) : standing_a aeq (ds ++ [d]) =
  filter (stays_a aeq [d]) (standing_a aeq ds) ++ match d with AddA a => [a] | Set_ c => ct_audio c | _ => [] end.
Proof.
  induction ds as [|e ds IH]; cbn [app standing_a].
  - rewrite app_nil_r. cbn [filter app]. apply filter_true. reflexivity.
  - rewrite IH, filter_app, app_assoc, filter_filter. f_equal. f_equal.
    apply filter_ext. intros v. apply stays_a_snoc.
Qed.
Lemma last_location_snoc ds (d : change V A L) : last_location (ds ++ [d]) =
  match d with SetLoc l => Some l | Set_ c => Some (ct_location c) | _ => last_location ds end.
Proof.
  induction ds as [|e ds IH]; cbn [app last_location].
  - reflexivity.
  - rewrite IH. destruct d; reflexivity.
Qed.

Lemma filter_false {B} (f : B -> bool) l : (forall x, f x = false) -> filter f l = [].
Proof. intros H. induction l; cbn; auto. rewrite H. auto. Qed.

Lemma cat_of_describes init ds : describes init ds (cat_of init ds).
Proof.
  induction ds as [|d ds (Hv & Ha & Hl)] using rev_ind.
  - unfold CatalogSpec.describes. cbn. rewrite !app_nil_r, !filter_true by reflexivity. auto.
  - unfold CatalogSpec.describes. rewrite !app_comm_cons, standing_v_snoc, standing_a_snoc, last_location_snoc, cat_of_snoc.
    rewrite <- Hv, <- Ha, <- Hl.
    assert (Ev : forall v, stays_v veq [d] v = match d with RemV v' => negb (veq v v') | Set_ _ => false | _ => true end)
      by (intros v; cbn; apply andb_true_r).
    assert (Ea : forall v, stays_a aeq [d] v = match d with RemA v' => negb (aeq v v') | Set_ _ => false | _ => true end)
      by (intros v; cbn; apply andb_true_r).
    rewrite (filter_ext _ _ Ev), (filter_ext _ _ Ea).
    destruct d; cbn; rewrite ?app_nil_r, ?(filter_true (fun _ => true)), ?(filter_false (fun _ => false)) by reflexivity; auto.
Qed.

Lemma describes_unique (init : catalog) ds c c' : describes init ds c -> describes init ds c' -> c = c'.
Proof. destruct c, c'. unfold CatalogSpec.describes. cbn. intros (-> & -> & E) (-> & -> & E'). congruence. Qed.

(** * Events *)
Lemma changes_snoc (tr : list cevent) e : changes (tr ++ [e]) = changes tr ++ changes [e].
Proof. apply flat_map_app. Qed.

Lemma publications_snoc (tr : list cevent) e : forall ds,
  publications ds (tr ++ [e]) = publications ds tr ++ match e with (CPublish _, CUnit) => [ds ++ changes tr] | _ => [] end.
Proof.
  induction tr as [|[o x] tr IH]; intros ds; cbn [app].
  - cbn. rewrite app_nil_r. destruct e as [[] []]; reflexivity.
  - assert (E : changes ((o, x) :: tr) = changes [(o, x)] ++ changes tr) by apply (flat_map_app _ [(o, x)]).
    rewrite E. destruct o; cbn [publications]; rewrite ?IH; destruct x; cbn [publications changes flat_map app]; rewrite ?IH, <- ?app_assoc; reflexivity.
Qed.

Definition snaps (init : catalog) (tr : list cevent) : list catalog := map (cat_of init) (publications [] tr).
Lemma snaps_snoc init (tr : list cevent) e : 
  snaps init (tr ++ [e]) = snaps init tr ++ match e with (CPublish _, CUnit) => [cat_of init (changes tr)] | _ => [] end.
Proof. unfold snaps. rewrite publications_snoc, map_app. destruct e as [[] []]; reflexivity. Qed.

Lemma reads_snoc (tr : list cevent) e : reads (tr ++ [e]) = read_event (reads tr) e.
Proof. unfold reads. rewrite fold_left_app. reflexivity. Qed.

(** * The groups *)
Definition heap_of (d : bytes) (k : nat) : list fsys :=
  match k with
  | 0 => []
  | 1 => [FSys (len d) (FrameState [] None) [Some 0%N] [None] 0]
  | 2 => [FSys (len d) (FrameState [d] None) [Some (len d)] [None] 0]
  | _ => [FSys (len d) (FrameState [d] (Some Finished)) [None] [None] 0]
  end.
Definition gsh (x : bytes * nat) (g : gsys) : Prop :=
  let (d, k) := x in
  gs_heap g = heap_of d k /\ gs_frames g = match k with 0 => [] | _ => [(0, 0)] end /\
  gs_closed g = (if Nat.leb k 3 then None else Some Finished) /\
  gs_prods g = [if Nat.leb k 3 then Some tt else None] /\ gs_guards g = 0 /\
  get (gs_cons g) 0 = Some (GC 0 None).

Definition stage_no (k : pstage) : nat :=
  match k with PCreate => 0 | PWrite => 1 | PFrameEnd => 2 | PGroupEnd => 3 | _ => 4 end.
Definition stage_ops (d : bytes) (k : nat) : list gop :=
  match k with
  | 0 => create_frame 0 0 (len d)
  | 1 => [GFrame 0 (FWrite 0 d)]
  | 2 => [GFrame 0 (FFinish 0)]
  | _ => [GFinish 0]
  end.

Lemma gsh_step w d k g : k <= 3 -> (len d < 2 ^ w)%N -> gsh (d, k) g ->
  exists g', gsteps w g (stage_ops d k) = (g', true) /\ gsh (d, S k) g' /\ gs_cons g' = gs_cons g.
Proof.
  destruct g as [heap frames closed prods guards cons]. unfold gsh. cbn [gs_heap gs_frames gs_closed gs_prods gs_guards gs_cons].
  intros K Hd (-> & -> & -> & -> & -> & C).
  assert (E : (len d mod 2 ^ w = len d)%N) by (apply N.mod_small; auto).
  destruct k as [|[|[|[|k]]]]; [| | | |lia]; cbn [stage_ops].
  - eexists. split; [reflexivity|]. cbn. auto 10.
  - cbn. rewrite E, N.leb_refl. cbn. eexists. split; [reflexivity|]. cbn. auto 10.
  - cbn. unfold frame_finish. rewrite E, N.eqb_refl. cbn. eexists. split; [reflexivity|]. cbn. auto 10.
  - cbn. eexists. split; [reflexivity|]. cbn. auto 10.
Qed.

(** Reading a group. *)
Lemma gsh_read d k g x : gsh (d, k) g -> (x = GC 0 None \/ (x = GC 1 (Some (0, 0)) /\ gs_frames g <> [])) ->
  exists y, group_read (gsys_alive g) (gs_heap g) (gs_frames g) (gs_closed g) x =
    Val (if Nat.leb k 2 then APending else AOk (Some d), y) /\
    (k <= 2 -> y = GC 0 None \/ (y = GC 1 (Some (0, 0)) /\ gs_frames g <> [])).
Proof.
  destruct g as [heap frames closed prods guards cons]. unfold gsh. cbn [gs_heap gs_frames gs_closed gs_prods gs_guards gs_cons].
  intros (-> & -> & -> & -> & -> & C) [->|[-> F]]; destruct k as [|[|[|[|k]]]]; try (contradiction F; reflexivity); cbn; rewrite ?app_nil_r;
  eexists; (split; [reflexivity|intros; try lia; auto]); right; split; auto; discriminate.
Qed.

(** * The publishing side *)
Definition done (c : catalog) : bytes * nat := (json c, 4).

Inductive lockok (sn : list catalog) (cur : catalog) : lock -> list (bytes * nat) -> Prop :=
| LFree : lockok sn cur Free (map done sn)
| LApp pre p k : sn = pre ++ [cur] -> k = PAppend1 \/ k = PAppend2 -> lockok sn cur (Held p k) (map done pre)
| LMid pre p k : sn = pre ++ [cur] -> stage_no k <= 3 -> lockok sn cur (Held p k) (map done pre ++ [(json cur, stage_no k)])
| LBad pre c : sn = pre ++ [c] -> lockok sn cur Poisoned (map done pre).

Record trackok (s : csys V A L) : Prop := {
  to_latest : ts_latest (cs_track s) = latest_of (length (cs_groups s));
  to_app : forall q n, get (ts_prods (cs_track s)) q = Some (Appending n) ->
             cs_lock s = Held q PAppend2 /\ n = N.of_nat (length (cs_groups s));
  to_held : forall p k, cs_lock s = Held p k ->
              get (ts_prods (cs_track s)) p = Some (match k with PAppend2 => Appending (N.of_nat (length (cs_groups s))) | _ => Idle end);
  to_bad : cs_lock s = Poisoned -> ts_closed (cs_track s) <> None }.

Record pinv (init : catalog) (s : csys V A L) (tr : list cevent) : Prop := {
  pi_cur : cs_cur s = cat_of init (changes tr);
  pi_groups : exists shapes, lockok (snaps init tr) (cs_cur s) (cs_lock s) shapes /\ Forall2 gsh shapes (cs_groups s);
  pi_track : trackok s }.

Definition fits (w : N) (init : catalog) (tr : list cevent) : Prop :=
  Forall (fun c => (len (json c) < 2 ^ w)%N) (snaps init tr) /\ (N.of_nat (length (snaps init tr)) < 2 ^ 64)%N.

Lemma fits_snoc w init tr e : fits w init (tr ++ [e]) -> fits w init tr.
Proof.
  intros [F Ln]. rewrite snaps_snoc in *. apply Forall_app in F as [F _]. split; auto.
  rewrite app_length in Ln. lia.
Qed.

Lemma pinv_new init : pinv init (csys_new init) [].
Proof.
  split; cbn.
  - reflexivity.
  - exists []. split; [apply (LFree [] init)|constructor].
  - split; cbn; try reflexivity; try discriminate.
    intros [|q] n H; cbn in H; [discriminate|]. destruct q; discriminate.
Qed.

(** Events that publish nothing and change nothing. *)
Definition silent (e : cevent) : Prop :=
  changes [e] = [] /\ match e with (CPublish _, CUnit) => False | _ => True end.

Lemma pinv_same init s s' tr e : pinv init s tr -> silent e ->
  cs_cur s' = cs_cur s -> cs_lock s' = cs_lock s -> 
  (forall shapes, Forall2 gsh shapes (cs_groups s) -> Forall2 gsh shapes (cs_groups s')) ->
  trackok s' -> pinv init s' (tr ++ [e]).
Proof.
  intros [C (sh & Lk & G) T] [S1 S2] Ec El Eg T'. split; auto.
  - rewrite Ec, changes_snoc, S1, app_nil_r. auto.
  - exists sh. rewrite snaps_snoc, Ec, El. split; auto.
    replace (match e with (CPublish _, CUnit) => _ | _ => _ end) with (@nil catalog).
    + rewrite app_nil_r. auto.
    + destruct e as [[] []]; auto; contradiction.
Qed.

Lemma trackok_ext s s' : trackok s -> cs_lock s' = cs_lock s -> length (cs_groups s') = length (cs_groups s) ->
  ts_latest (cs_track s') = ts_latest (cs_track s) -> ts_prods (cs_track s') = ts_prods (cs_track s) ->
  (ts_closed (cs_track s) <> None -> ts_closed (cs_track s') <> None) -> trackok s'.
Proof. intros [T1 T2 T3 T4] El Eg Et Ep Ec. split; rewrite ?El, ?Eg, ?Et, ?Ep; auto. Qed.

Lemma free_handle_idle (s : csys V A L) p : free_handle s p = true -> get (ts_prods (cs_track s)) p = Some Idle.
Proof.
  unfold free_handle, idle. intros H. apply andb_prop in H as [H _].
  destruct (get _ p) as [[|]|]; congruence.
Qed.
Lemma free_handle_ne (s : csys V A L) p q k : free_handle s p = true -> cs_lock s = Held q k -> p <> q.
Proof.
  unfold free_handle. intros H E. rewrite E in H. apply andb_prop in H as [_ H]. apply negb_true_iff, Nat.eqb_neq in H. auto.
Qed.

(** A handle of nobody's publish disappears, or a new idle one appears. *)
Lemma trackok_drop s p t : trackok s -> free_handle s p = true ->
  ts_latest t = ts_latest (cs_track s) -> ts_prods t = set_nth p None (ts_prods (cs_track s)) ->
  (ts_closed (cs_track s) <> None -> ts_closed t <> None) -> trackok (cwith_track s t).
Proof.
  intros [T1 T2 T3 T4] F El Ep Ec. pose proof (free_handle_idle _ _ F) as Hp.
  split; cbn [cs_track cs_lock cs_groups cwith_track]; rewrite ?El, ?Ep; auto.
  - intros q n Hq. destruct (Nat.eq_dec p q) as [->|N].
    + rewrite (get_set_eq _ _ _ _ Hp) in Hq. discriminate.
    + rewrite get_set_ne in Hq by auto. eauto.
  - intros q k Hq. rewrite get_set_ne; eauto. eapply free_handle_ne; eauto.
Qed.

Lemma trackok_clone s t : trackok s ->
  ts_latest t = ts_latest (cs_track s) -> ts_prods t = ts_prods (cs_track s) ++ [Some Idle] ->
  ts_closed t = ts_closed (cs_track s) -> trackok (cwith_track s t).
Proof.
  intros [T1 T2 T3 T4] El Ep Ec.
  split; cbn [cs_track cs_lock cs_groups cwith_track]; rewrite ?El, ?Ep, ?Ec; auto.
  - intros q n Hq. rewrite get_app in Hq. destruct (Nat.eqb _ _); [discriminate|]. eauto.
  - intros q k Hq. rewrite get_app. pose proof (T3 _ _ Hq) as Hg. pose proof (get_lt _ _ _ Hg).
    destruct (Nat.eqb_spec q (length (ts_prods (cs_track s)))); [lia|]. auto.
Qed.

Lemma on_last_step w (s : csys V A L) pre d k next :
  Forall2 gsh (pre ++ [(d, k)]) (cs_groups s) -> k <= 3 -> (len d < 2 ^ w)%N ->
  exists g g' l0, cs_groups s = l0 ++ [g] /\ length l0 = length pre /\ gs_cons g' = gs_cons g /\ gsh (d, k) g /\ gsh (d, S k) g' /\
    on_last w s (stage_ops d k) next = (cwith_lock (cwith_groups s (l0 ++ [g'])) next, CUnit) /\
    Forall2 gsh (pre ++ [(d, S k)]) (l0 ++ [g']).
Proof.
  intros H K Hd. apply Forall2_last in H as (l0 & g & E & H0 & Hg & Ln).
  destruct (gsh_step w d k g K Hd Hg) as (g' & Eo & S' & Ec).
  exists g, g', l0. repeat (split; [assumption|]). split; [|apply Forall2_app; auto].
  unfold on_last. rewrite E, app_length. cbn [length]. rewrite Nat.add_1_r. cbn [pred]. rewrite nth_last, Eo.
  cbn [cs_groups cwith_groups]. rewrite ?E, set_last. reflexivity.
Qed.

(** Consumers of groups survive. *)
Definition groups_grow (gs gs' : list gsys) : Prop :=
  length gs <= length gs' /\
  forall j g, nth_error gs j = Some g -> exists g', nth_error gs' j = Some g' /\ gs_cons g' = gs_cons g /\
    (gs_frames g <> [] -> gs_frames g' <> []).

Lemma groups_grow_refl gs : groups_grow gs gs.
Proof. split; eauto. Qed.

Lemma groups_grow_last l0 g g' : gs_cons g' = gs_cons g -> (gs_frames g <> [] -> gs_frames g' <> []) ->
  groups_grow (l0 ++ [g]) (l0 ++ [g']).
Proof.
  intros Ec Ef. split; [rewrite !app_length; cbn; lia|]. intros j x Hj.
  apply nth_error_split2 in Hj as [[Hl Hj]|[-> ->]].
  - exists x. rewrite nth_error_app1 by auto. auto.
  - exists g'. rewrite nth_last. auto.
Qed.

Lemma groups_grow_app l0 g : groups_grow l0 (l0 ++ [g]).
Proof.
  split; [rewrite app_length; lia|]. intros j x Hj. exists x.
  rewrite nth_error_app1 by (apply nth_error_Some; congruence). auto.
Qed.

Lemma silent_step x : silent (@CStep V A L, x).
Proof. split; cbn; auto. Qed.

Lemma lock_held_inv sn cur p k sh : lockok sn cur (Held p k) sh ->
  exists pre, sn = pre ++ [cur] /\
    (((k = PAppend1 \/ k = PAppend2) /\ sh = map done pre) \/ (stage_no k <= 3 /\ sh = map done pre ++ [(json cur, stage_no k)])).
Proof. intros H. inversion H; subst; eauto 10. Qed.

Lemma latest_next n m : (N.of_nat n < 2 ^ 64)%N -> append_seq m (latest_of n) = Val (N.of_nat n).
Proof.
  intros H. destruct n; cbn [latest_of append_seq]; auto. cbn [g_seq].
  replace (N.of_nat n + 1)%N with (N.of_nat (S n)) by lia.
  destruct (N.ltb_spec (N.of_nat (S n)) (2 ^ 64)); [reflexivity|lia].
Qed.

Lemma step_publish w m init s tr p k : pinv init s tr -> fits w init tr -> cs_lock s = Held p k ->
  let '(s', x) := cstep w m s (@CStep V A L) in
  pinv init s' (tr ++ [(@CStep V A L, x)]) /\ groups_grow (cs_groups s) (cs_groups s') /\
  cs_readers s' = cs_readers s /\ ts_cons (cs_track s') = ts_cons (cs_track s) /\
  (ts_closed (cs_track s) = None -> x = CUnit) /\ (x = CUnit \/ x = CPanic) /\
  ts_closed (cs_track s') = ts_closed (cs_track s).
Proof.
  intros I [F1 F2] El. pose proof I as [C (sh & Lk & G) T]. pose proof T as [T1 T2 T3 T4].
  cbn [Catalog.cstep]. rewrite El.
  rewrite El in Lk. apply lock_held_inv in Lk as (pre & Es & [[Hk ->]|[Hk ->]]).
  - assert (Ln : length (cs_groups s) = length pre) by (rewrite <- (Forall2_length _ _ _ G), map_length; auto).
    assert (N64 : (N.of_nat (length (cs_groups s)) < 2 ^ 64)%N).
    { rewrite Es, app_length in F2. rewrite Ln. cbn [length] in F2. lia. }
    destruct Hk as [->| ->]; cbn [cpublish].
    + pose proof (T3 _ _ El) as Hp. cbn in Hp. cbn [tstep]. unfold idle. rewrite Hp, T1, (latest_next _ _ N64).
      split; [|conjs; auto using groups_grow_refl].
      split; cbn [cs_track cs_lock cs_groups cs_cur cwith_track cwith_lock].
      * rewrite changes_snoc. cbn. rewrite app_nil_r. auto.
      * exists (map done pre). split; auto. rewrite snaps_snoc. cbn. rewrite app_nil_r. apply LApp; auto.
      * split; cbn [cs_track cs_lock cs_groups cs_cur cwith_track cwith_lock ts_latest ts_prods ts_closed twith_prods]; auto.
        -- intros q n Hq. destruct (Nat.eq_dec p q) as [->|Nq].
           ++ rewrite (get_set_eq _ _ _ _ Hp) in Hq. injection Hq as <-. auto.
           ++ rewrite get_set_ne in Hq by auto. destruct (T2 _ _ Hq) as [Ea _]. rewrite El in Ea. congruence.
        -- intros q k Hq. injection Hq as <- <-. apply (get_set_eq _ _ _ _ Hp).
        -- discriminate.
    + pose proof (T3 _ _ El) as Hp. cbn in Hp. cbn [tstep]. rewrite Hp. cbn [ts_latest ts_closed twith_prods].
      unfold track_insert. cbn [g_seq].
      destruct (ts_closed (cs_track s)) as [o|] eqn:Ec.
      * (* the track was finished: panic under the lock *)
        split; [|conjs; auto using groups_grow_refl; discriminate].
        split; cbn [cs_track cs_lock cs_groups cs_cur cwith_track cwith_lock].
        -- rewrite changes_snoc. cbn. rewrite app_nil_r. auto.
        -- exists (map done pre). split; auto. rewrite snaps_snoc. cbn. rewrite app_nil_r. eapply LBad; eauto.
        -- split; cbn [cs_track cs_lock cs_groups cs_cur cwith_track cwith_lock ts_latest ts_prods ts_closed twith_prods]; auto; try discriminate.
           intros q n Hq. destruct (Nat.eq_dec p q) as [->|Nq].
           ++ rewrite (get_set_eq _ _ _ _ Hp) in Hq. discriminate.
           ++ rewrite get_set_ne in Hq by auto. destruct (T2 _ _ Hq) as [Ea _]. rewrite El in Ea. congruence.
           ++ rewrite Ec. discriminate.
      * assert (Ins : match ts_latest (cs_track s) with
           | Some l => if (g_seq l <? N.of_nat (length (cs_groups s)))%N then Val (true, Some (Group (N.of_nat (length (cs_groups s))) (length (cs_groups s)))) else Val (false, ts_latest (cs_track s))
           | None => Val (true, Some (Group (N.of_nat (length (cs_groups s))) (length (cs_groups s)))) end
           = Val (true, latest_of (S (length (cs_groups s))))).
        { rewrite T1. destruct (length (cs_groups s)) as [|n] eqn:En; cbn [latest_of]; auto. cbn [g_seq].
          destruct (N.ltb_spec (N.of_nat n) (N.of_nat (S n))); [reflexivity|lia]. }
        rewrite Ins.
        set (g := fst (gstep w gsys_new (GConsume 0))).
        assert (Gg : gsh (json (cs_cur s), 0) g) by (cbn; repeat split; auto).
        split; [|conjs; auto using groups_grow_app; try discriminate].
        -- split; cbn [cs_track cs_lock cs_groups cs_cur cwith_track cwith_lock cwith_groups].
           ++ rewrite changes_snoc. cbn. rewrite app_nil_r. auto.
           ++ exists (map done pre ++ [(json (cs_cur s), 0)]). split.
              ** rewrite snaps_snoc. cbn. rewrite app_nil_r. apply (LMid _ _ pre p PCreate); auto.
              ** apply Forall2_app; auto.
           ++ split; cbn [cs_track cs_lock cs_groups cs_cur cwith_track cwith_lock cwith_groups ts_latest ts_prods ts_closed twith_prods twith_latest]; auto.
              ** rewrite app_length. cbn [length]. rewrite Nat.add_1_r. auto.
              ** intros q n Hq. destruct (Nat.eq_dec p q) as [->|Nq].
                 --- rewrite (get_set_eq _ _ _ _ Hp) in Hq. discriminate.
                 --- rewrite get_set_ne in Hq by auto. destruct (T2 _ _ Hq) as [Ea _]. rewrite El in Ea. congruence.
              ** intros q k Hq. injection Hq as <- <-. apply (get_set_eq _ _ _ _ Hp).
              ** discriminate.
        -- apply groups_grow_app.
  - assert (Hd : (len (json (cs_cur s)) < 2 ^ w)%N).
    { rewrite Es in F1. apply Forall_app in F1 as [_ F1]. apply Forall_inv in F1. auto. }
    assert (X : exists next, cpublish json w m s p k = on_last w s (stage_ops (json (cs_cur s)) (stage_no k)) next /\
        (next = Free /\ stage_no k = 3 \/ exists k', next = Held p k' /\ stage_no k' = S (stage_no k) /\ stage_no k' <= 3 /\ k' <> PAppend2)).
    { destruct k; cbn in Hk; try lia; eexists; (split; [reflexivity|]); cbn;
      try (right; eexists; split; [reflexivity|]; cbn; split; [reflexivity|]; split; [lia|discriminate]); auto. }
    destruct X as (next & Ex & Hn). rewrite Ex.
    destruct (on_last_step w s _ _ _ next G Hk Hd) as (g & g' & l0 & Eg & Ll & Ec & Sg & Sg' & Eo & G').
    rewrite Eo. 
    assert (Gr : groups_grow (cs_groups s) (l0 ++ [g'])).
    { rewrite Eg. apply groups_grow_last; auto. intros _. destruct Sg' as (_ & Fr & _). rewrite Fr. discriminate. }
    assert (Lg : length (l0 ++ [g']) = length (cs_groups s)) by (rewrite Eg, !app_length; reflexivity).
    pose proof (T3 _ _ El) as Hp.
    assert (Hidle : match k with PAppend2 => Appending (N.of_nat (length (cs_groups s))) | _ => Idle end = Idle)
      by (destruct k; cbn in Hk; auto; lia).
    rewrite Hidle in Hp.
    split; [|conjs; auto].
    split; cbn [cs_track cs_lock cs_groups cs_cur cwith_track cwith_lock cwith_groups].
    + rewrite changes_snoc. cbn. rewrite app_nil_r. auto.
    + exists (map done pre ++ [(json (cs_cur s), S (stage_no k))]). split; auto.
      rewrite snaps_snoc. cbn [app]. rewrite app_nil_r. destruct Hn as [[-> E3]|(k' & -> & E' & K' & _)].
      * rewrite E3. replace (map done pre ++ [(json (cs_cur s), 4)]) with (map done (snaps init tr)); [apply LFree|].
        rewrite Es, map_app. reflexivity.
      * rewrite <- E'. eapply LMid; eauto.
    + split; cbn [cs_track cs_lock cs_groups cs_cur cwith_track cwith_lock cwith_groups]; rewrite ?Lg; auto.
      * intros q n Hq. destruct (T2 _ _ Hq) as [Ea _]. rewrite El in Ea. injection Ea as -> ->. cbn in Hk. lia.
      * intros q k0 Hq. destruct Hn as [[-> _]|(k' & -> & E' & K' & Nk)]; [discriminate|]. injection Hq as <- <-.
        rewrite Hp. destruct k'; congruence.
      * intros Hb. destruct Hn as [[-> _]|(k' & -> & _)]; discriminate.
Qed.

(** * Readers *)
Definition got (sn : list catalog) (js : list nat) (l : list (option catalog)) : Prop :=
  StronglySorted lt js /\ Forall2 (fun j x => exists c, nth_error sn j = Some c /\ x = parse (json c)) js l.

Definition cons_ok (g : gsys) (c : nat) : Prop :=
  get (gs_cons g) c = Some (GC 0 None) \/ (get (gs_cons g) c = Some (GC 1 (Some (0, 0))) /\ gs_frames g <> []).

Definition rok (t : table (option N)) (groups : list gsys) (sn : list catalog) (l : list (option catalog)) (r : nat) (rd : creader) : Prop :=
  cr_track rd = r /\ exists prev js, get t r = Some prev /\ got sn js l /\
  match cr_group rd with
  | None => (prev = None /\ js = []) \/ exists js0 j, js = js0 ++ [j] /\ prev = Some (N.of_nat j) /\ j < length groups
  | Some (j, c) => prev = Some (N.of_nat j) /\ Forall (fun i => i < j) js /\ c <> 0 /\
      exists g, nth_error groups j = Some g /\ cons_ok g c
  end.

Record rinv (init : catalog) (s : csys V A L) (tr : list cevent) : Prop := {
  ri_cons : length (ts_cons (cs_track s)) = length (cs_readers s);
  ri_reads : length (reads tr) = length (cs_readers s);
  ri_ok : forall r rd l, nth_error (cs_readers s) r = Some rd -> nth_error (reads tr) r = Some l ->
            rok (ts_cons (cs_track s)) (cs_groups s) (snaps init tr) l r rd;
  ri_inj : forall r r' a b x, nth_error (cs_readers s) r = Some a -> nth_error (cs_readers s) r' = Some b ->
             cr_group a = Some x -> cr_group b = Some x -> r = r' }.

Lemma got_ext sn more js l : got sn js l -> got (sn ++ more) js l.
Proof.
  intros [H1 H2]. split; auto. eapply Forall2_impl; [|exact H2]. cbn. intros j x (c & Hc & ->).
  exists c. split; auto. rewrite nth_error_app1; auto. apply nth_error_Some. congruence.
Qed.

Lemma rok_ext t t' gs gs' sn more l r rd : rok t gs sn l r rd ->
  get t' r = get t r -> length gs <= length gs' ->
  (forall j c g, cr_group rd = Some (j, c) -> nth_error gs j = Some g -> cons_ok g c -> exists g', nth_error gs' j = Some g' /\ cons_ok g' c) ->
  rok t' gs' (sn ++ more) l r rd.
Proof.
  intros (E & prev & js & Hp & Hg & H) Et Lg Hc. split; auto. exists prev, js. rewrite Et. split; auto.
  split; [apply got_ext; auto|]. destruct (cr_group rd) as [[j c]|] eqn:Eg.
  - destruct H as (H1 & H2 & H3 & g & Hn & Hk). repeat (split; auto). eauto.
  - destruct H as [H|(js0 & j & -> & -> & Lj)]; auto. right. exists js0, j. repeat split; auto. lia.
Qed.

Lemma grow_cons gs gs' j c g : groups_grow gs gs' -> nth_error gs j = Some g -> cons_ok g c ->
  exists g', nth_error gs' j = Some g' /\ cons_ok g' c.
Proof.
  intros [_ H] Hj Hc. destruct (H _ _ Hj) as (g' & Hj' & Ec & Ef). exists g'. split; auto.
  unfold cons_ok in *. rewrite Ec. destruct Hc as [|[]]; auto.
Qed.

(** Steps that no reader notices. *)
Lemma rinv_same init s s' tr e : rinv init s tr -> (forall ls, read_event ls e = ls) ->
  groups_grow (cs_groups s) (cs_groups s') -> cs_readers s' = cs_readers s -> ts_cons (cs_track s') = ts_cons (cs_track s) ->
  rinv init s' (tr ++ [e]).
Proof.
  intros [R1 R2 R3 R4] Hr Hg Er Ec. split; rewrite ?reads_snoc, ?Hr, ?Er, ?Ec; auto.
  intros r rd l H1 H2. rewrite snaps_snoc. eapply rok_ext; [eauto|auto|apply Hg|].
  intros j c g _ Hj Hc. eapply grow_cons; eauto.
Qed.

Definition cinv init s tr : Prop := pinv init s tr /\ rinv init s tr.

Lemma cinv_new init : cinv init (csys_new init) [].
Proof.
  split; [apply pinv_new|]. split; auto; cbn.
  - intros [|r] rd l H; discriminate.
  - intros [|r] r' a b x H; discriminate.
Qed.

Lemma cinv_unchanged init s tr e : cinv init s tr -> silent e -> (forall ls, read_event ls e = ls) -> cinv init s (tr ++ [e]).
Proof.
  intros [P R] Se Re. split; [|eapply rinv_same; eauto using groups_grow_refl].
  eapply pinv_same; eauto. apply P.
Qed.

(** The lock is not poisoned while the track is open. *)
Lemma step_change w m init s tr p d s' x : cinv init s tr -> cstep w m s (CChange p d) = (s', x) ->
  cinv init s' (tr ++ [(CChange p d, x)]).
Proof.
  intros I. cbn [Catalog.cstep]. destruct (free_handle s p) eqn:F;
    [|intros H; injection H as <- <-; apply cinv_unchanged; [auto|split; reflexivity|reflexivity]].
  destruct (cs_lock s) eqn:El; intros H; injection H as <- <-;
    try (apply cinv_unchanged; [auto|split; reflexivity|reflexivity]).
  destruct I as [P R]. split; [|eapply rinv_same; eauto using groups_grow_refl].
  destruct P as [C (sh & Lk & G) T]. split; cbn [cs_cur cs_lock cs_groups cs_track cwith_cur].
  - rewrite changes_snoc. cbn. rewrite cat_of_snoc, C. reflexivity.
  - exists sh. split; auto. rewrite snaps_snoc. cbn. rewrite app_nil_r, El. rewrite El in Lk. inversion Lk. apply LFree.
  - destruct T as [T1 T2 T3 T4]. split; auto.
Qed.

Lemma step_lock w m init s tr p s' x : cinv init s tr -> cstep w m s (CPublish p) = (s', x) ->
  cinv init s' (tr ++ [(CPublish p, x)]).
Proof.
  intros I. cbn [Catalog.cstep]. destruct (free_handle s p) eqn:F;
    [|intros H; injection H as <- <-; apply cinv_unchanged; [auto|split; reflexivity|reflexivity]].
  destruct (cs_lock s) eqn:El; intros H; injection H as <- <-;
    try (apply cinv_unchanged; [auto|split; reflexivity|reflexivity]).
  destruct I as [P R]. split; [|eapply rinv_same; eauto using groups_grow_refl].
  destruct P as [C (sh & Lk & G) T]. split; cbn [cs_cur cs_lock cs_groups cs_track cwith_lock].
  - rewrite changes_snoc. cbn. rewrite app_nil_r. auto.
  - exists sh. split; auto. rewrite snaps_snoc, <- C. rewrite El in Lk. inversion Lk. eapply LApp; eauto.
  - destruct T as [T1 T2 T3 T4]. split; cbn [cs_cur cs_lock cs_groups cs_track cwith_lock]; auto; try discriminate.
    + intros q n Hq. destruct (T2 _ _ Hq). congruence.
    + intros q k Hq. injection Hq as <- <-. apply free_handle_idle. auto.
Qed.

(** Clones, drops and finishes. *)
Lemma step_handle w m init s tr o p s' x : cinv init s tr -> o = CClone p \/ o = CDrop p \/ o = CFinish p ->
  cstep w m s o = (s', x) -> cinv init s' (tr ++ [(o, x)]).
Proof.
  intros I Ho Hs.
  assert (Se : silent (o, x)) by (destruct Ho as [->|[->| ->]]; split; reflexivity || exact Logic.I).
  assert (Re : forall ls, read_event ls (o, x) = ls) by (destruct Ho as [->|[->| ->]]; reflexivity).
  assert (E : (s' = s \/ exists t, free_handle s p = true /\ s' = cwith_track s t /\ ts_cons t = ts_cons (cs_track s) /\ trackok (cwith_track s t))).
  { assert (T : trackok s) by apply I.
    destruct Ho as [->|[->| ->]]; cbn [Catalog.cstep] in Hs; destruct (free_handle s p) eqn:F; try (injection Hs as <- <-; auto; fail);
      pose proof (free_handle_idle _ _ F) as Hi; cbn [tstep] in Hs; unfold idle in Hs; rewrite Hi in Hs; injection Hs as <- <-; right;
      eexists; (split; [reflexivity|]); (split; [reflexivity|]); (split; [reflexivity|]).
    - apply trackok_clone; auto.
    - eapply trackok_drop; eauto.
    - eapply trackok_drop; eauto. cbn. discriminate. }
  destruct E as [->|(t & F & -> & Et & T)]; [apply cinv_unchanged; auto|].
  destruct I as [P R]. split; [eapply pinv_same; eauto|]. eapply rinv_same; eauto using groups_grow_refl.
Qed.

Lemma nth_error_nth_d {B} (l : list B) n x d : nth_error l n = Some x -> nth n l d = x.
Proof. intros H. apply nth_error_nth. auto. Qed.

Lemma get_app_old {B} (t : table B) x r a : get t r = Some a -> get (t ++ [x]) r = Some a.
Proof. intros H. rewrite get_app. pose proof (get_lt _ _ _ H). destruct (Nat.eqb_spec r (length t)); [lia|auto]. Qed.

Lemma step_new_reader w m init s tr p s' x : cinv init s tr -> cstep w m s (CConsume p) = (s', x) ->
  cinv init s' (tr ++ [(CConsume p, x)]).
Proof.
  intros I. cbn [Catalog.cstep]. destruct (free_handle s p) eqn:F;
    [|intros H; injection H as <- <-; apply cinv_unchanged; [auto|split; reflexivity|reflexivity]].
  pose proof (free_handle_idle _ _ F) as Hi. cbn [tstep]. unfold idle. rewrite Hi. intros H. injection H as <- <-.
  destruct I as [P R]. split.
  - eapply pinv_same; eauto; [split; reflexivity|]. eapply trackok_ext; [apply P|..]; auto.
  - destruct R as [R1 R2 R3 R4].
    split; cbn [cs_cur cs_lock cs_groups cs_track cs_readers cwith_track cwith_readers ts_cons twith_cons];
    rewrite ?reads_snoc; cbn [read_event]; rewrite ?app_length; cbn [length]; try lia.
    + intros r rd l Hr Hl. rewrite snaps_snoc. apply nth_error_split2 in Hr as [[Lr Hr]|[-> ->]].
      * rewrite nth_error_app1 in Hl by lia. pose proof (R3 _ _ _ Hr Hl) as Hk. eapply rok_ext; eauto.
        destruct Hk as (_ & prev & js & Hp & _). rewrite (get_app_old _ _ _ _ Hp). auto.
      * rewrite <- R2, nth_last in Hl. injection Hl as <-. split; cbn; auto.
        exists None, []. rewrite get_app, <- R1, Nat.eqb_refl. repeat split; auto; constructor.
    + intros r r' a b y Ha Hb Hx Hy.
      apply nth_error_split2 in Ha as [[La Ha]|[-> ->]]; [|discriminate].
      apply nth_error_split2 in Hb as [[Lb Hb]|[-> ->]]; [|discriminate]. eapply R4; eauto.
Qed.

Lemma Forall2_replace gs j g (g' : gsys) : nth_error gs j = Some g -> (forall x, gsh x g -> gsh x g') ->
  forall shapes, Forall2 gsh shapes gs -> Forall2 gsh shapes (set_nth j g' gs).
Proof.
  intros Hj H shapes F. destruct (nth_error shapes j) as [x|] eqn:E.
  - eapply Forall2_set_r; eauto. apply H. eapply Forall2_nth_error; eauto.
  - apply nth_error_None in E. rewrite (Forall2_length _ _ _ F) in E. assert (j < length gs) by (apply nth_error_Some; congruence). lia.
Qed.

Lemma shape_at init s tr j g : pinv init s tr -> nth_error (cs_groups s) j = Some g ->
  exists k c, nth_error (snaps init tr) j = Some c /\ gsh (json c, k) g /\
    (k = 4 \/ exists p q, cs_lock s = Held p q /\ stage_no q = k /\ k <= 3 /\ S j = length (cs_groups s)) /\ (S j < length (snaps init tr) -> k = 4).
Proof.
  intros [C (sh & Lk & G) T] Hj.
  assert (Lj : j < length (cs_groups s)) by (apply nth_error_Some; congruence).
  destruct (nth_error sh j) as [x|] eqn:E; [|apply nth_error_None in E; rewrite (Forall2_length _ _ _ G) in E; lia].
  pose proof (Forall2_nth_error _ _ _ _ _ _ G E Hj) as Hs.
  assert (Dn : forall l, nth_error (map done l) j = Some x -> exists c, nth_error l j = Some c /\ x = (json c, 4)).
  { intros l Hl. rewrite nth_error_map in Hl. destruct (nth_error l j); [|discriminate]. injection Hl as <-. eauto. }
  pose proof (Forall2_length _ _ _ G) as Lg.
  inversion Lk as [E1 E2|pre p k Es Hk E1 E2|pre p k Es Hk E1 E2|pre c Es E1 E2]; subst sh.
  - destruct (Dn _ E) as (c & Hc & ->). exists 4, c. auto.
  - destruct (Dn _ E) as (c & Hc & ->). exists 4, c. rewrite Es. rewrite nth_error_app1 by (apply nth_error_Some; congruence). auto.
  - apply nth_error_split2 in E as [[Lx E]|[-> ->]].
    + destruct (Dn _ E) as (c & Hc & ->). exists 4, c. rewrite Es. rewrite nth_error_app1 by (apply nth_error_Some; congruence). auto.
    + exists (stage_no k), (cs_cur s). rewrite Es, map_length, nth_last. repeat (split; auto).
      * right. exists p, k. repeat split; auto. rewrite <- Lg, app_length, map_length. cbn. lia.
      * rewrite app_length. cbn. lia.
  - destruct (Dn _ E) as (c0 & Hc & ->). exists 4, c0. rewrite Es. rewrite nth_error_app1 by (apply nth_error_Some; congruence). auto.
Qed.

Lemma gsh_cons x g t : gsh x g -> get t 0 = Some (GC 0 None) -> gsh x (gwith_cons g t).
Proof. destruct x. unfold gsh. cbn. intros (H1 & H2 & H3 & H4 & H5 & H6) H. auto 10. Qed.

Lemma clone_cons g t k c : cons_ok g c -> cons_ok (gwith_cons g (gs_cons g ++ [t])) c /\ c <> k + length (gs_cons g).
Proof.
  unfold cons_ok. cbn [gs_cons gs_frames gwith_cons]. intros [H|[H H']]; rewrite (get_app_old _ _ _ _ H); pose proof (get_lt _ _ _ H); (split; [auto|lia]).
Qed.

(** A reader takes the newest group. *)
Lemma step_track w m init s tr r s' x : cinv init s tr -> cstep w m s (CTrack r) = (s', x) ->
  cinv init s' (tr ++ [(CTrack r, x)]) /\ x <> CPanic /\ (forall c, x <> CRead c).
Proof.
  intros I. pose proof I as [P R]. cbn [Catalog.cstep].
  destruct (nth_error (cs_readers s) r) as [rd|] eqn:Er;
    [|intros H; injection H as <- <-; split; [apply cinv_unchanged; [auto|split; reflexivity|reflexivity]|split; discriminate]].
  pose proof R as [R1 R2 R3 R4]. pose proof P as [C (sh & Lk & G) T].
  assert (Lr : r < length (cs_readers s)) by (apply nth_error_Some; congruence).
  destruct (nth_error (reads tr) r) as [l|] eqn:El; [|apply nth_error_None in El; lia].
  destruct (R3 _ _ _ Er El) as (Et & prev & js & Hp & Hgot & Hg). rewrite Et.
  cbn [tstep]. rewrite Hp. unfold track_next.
  (* a poll without a group *)
  assert (Quiet : forall y, (forall ls, read_event ls (@CTrack V A L r, y) = ls) ->
     cinv init (cwith_track s (twith_cons (cs_track s) (set_nth r (Some prev) (ts_cons (cs_track s))))) (tr ++ [(CTrack r, y)])).
  { intros y Hy. assert (E : set_nth r (Some prev) (ts_cons (cs_track s)) = ts_cons (cs_track s)).
    { apply set_nth_same. apply get_Some. auto. }
    rewrite E. replace (twith_cons (cs_track s) (ts_cons (cs_track s))) with (cs_track s) by (destruct (cs_track s); reflexivity).
    replace (cwith_track s (cs_track s)) with s by (destruct s; reflexivity).
    apply cinv_unchanged; auto. split; reflexivity || exact Logic.I. }
  destruct (opt_gt (option_map g_seq (ts_latest (cs_track s))) prev || _) eqn:Ow; cycle 1.
  { destruct (tsys_alive (cs_track s)); intros H; injection H as <- <-; (split; [apply Quiet; reflexivity|split; discriminate]). }
  destruct (ts_closed (cs_track s)) as [[|e]|] eqn:Ecl;
    [intros H; injection H as <- <-; (split; [apply Quiet; reflexivity|split; discriminate])..|].
  rewrite orb_false_r in Ow. pose proof (to_latest _ T) as Tl. rewrite Tl in Ow |- *.
  destruct (length (cs_groups s)) as [|n] eqn:En; cbn [latest_of option_map] in *; [destruct prev; discriminate|].
  cbn [g_seq g_id cs_groups cwith_track].
  destruct (nth_error (cs_groups s) n) as [g|] eqn:Eg; [|apply nth_error_None in Eg; lia].
  destruct (shape_at _ _ _ _ _ P Eg) as (k & c & Hc & Sg & _ & _).
  assert (K0 : get (gs_cons g) 0 = Some (GC 0 None)) by (destruct Sg as (_ & _ & _ & _ & _ & ?); auto).
  cbn [gstep]. rewrite K0. intros H. injection H as <- <-. split; [|split; discriminate].
  assert (Lc : length (gs_cons g) <> 0) by (apply get_lt in K0; lia).
  set (g' := gwith_cons g (gs_cons g ++ [Some (GC 0 None)])).
  assert (Lj : forall i, In i js -> i < n).
  { intros i Hi. assert (Hprev : exists j, prev = Some (N.of_nat j) /\ i <= j).
    { destruct (cr_group rd) as [[j c0]|].
      - destruct Hg as (Hpr & Hlt & _). exists j. split; auto. rewrite Forall_forall in Hlt. apply Hlt in Hi. lia.
      - destruct Hg as [[_ ->]|(js0 & j & -> & -> & _)]; [destruct Hi|]. exists j. split; auto.
        apply in_app_iff in Hi as [Hi|[->|[]]]; auto. destruct Hgot as [Hs _].
        clear -Hs Hi. induction js0 as [|a js0 IH]; cbn in *; [destruct Hi|].
        inversion Hs as [|? ? Hs' Hall]; subst. destruct Hi as [->|Hi]; auto. rewrite Forall_forall in Hall.
        specialize (Hall j). rewrite in_app_iff in Hall. cbn in Hall. lia. }
    destruct Hprev as (j & -> & Lij). cbn in Ow. apply N.ltb_lt in Ow. lia. }
  split.
  - eapply pinv_same; eauto; cbn [cs_cur cs_lock cs_groups cs_track cs_readers cwith_track cwith_readers cwith_groups].
    + split; reflexivity.
    + apply (Forall2_replace _ _ g); auto. intros y Hy. apply gsh_cons; auto. apply get_app_old. auto.
    + eapply trackok_ext; [exact T|..]; cbn [cs_cur cs_lock cs_groups cs_track cs_readers cwith_track cwith_readers cwith_groups ts_closed ts_prods ts_latest twith_cons]; auto.
      rewrite set_nth_length. auto.
  - assert (Old : forall r0 a, nth_error (set_nth r (CReader r (Some (n, length (gs_cons g)))) (cs_readers s)) r0 = Some a ->
       (r0 = r /\ a = CReader r (Some (n, length (gs_cons g)))) \/ (r0 <> r /\ nth_error (cs_readers s) r0 = Some a)).
    { intros r0 a Ha. destruct (Nat.eq_dec r0 r) as [->|Nr].
      - rewrite nth_error_set_eq in Ha by auto. injection Ha as <-. auto.
      - rewrite nth_error_set_ne in Ha by auto. auto. }
    split; cbn [cs_cur cs_lock cs_groups cs_track cs_readers cwith_track cwith_readers cwith_groups ts_cons twith_cons];
      rewrite ?reads_snoc; cbn [read_event]; rewrite ?set_nth_length; auto.
    + intros r0 a l0 Ha Hl0. rewrite snaps_snoc. apply Old in Ha as [[-> ->]|[Nr Ha]].
      * rewrite El in Hl0. injection Hl0 as <-. split; auto. exists (Some (N.of_nat n)), js.
        rewrite (get_set_eq _ _ _ _ Hp). split; auto. split; [apply got_ext; auto|]. cbn [cr_group].
        split; auto. split; [apply Forall_forall; auto|]. split; auto.
        exists g'. rewrite nth_error_set_eq by lia. split; auto. left. cbn [g' gs_cons gwith_cons]. rewrite get_app, Nat.eqb_refl. auto.
      * eapply rok_ext; [eauto|rewrite get_set_ne by auto; auto|rewrite set_nth_length; auto|].
        intros j c0 g0 _ Hj Hk. destruct (Nat.eq_dec j n) as [->|Nj].
        -- rewrite Eg in Hj. injection Hj as <-. exists g'. rewrite nth_error_set_eq by lia. split; auto.
           apply (clone_cons g (Some (GC 0 None)) 0); auto.
        -- exists g0. rewrite nth_error_set_ne by auto. auto.
    + assert (Nu : forall r0 a, nth_error (cs_readers s) r0 = Some a -> cr_group a <> Some (n, length (gs_cons g))).
      { intros r0 a Ha Hx. assert (Lr0 : r0 < length (cs_readers s)) by (apply nth_error_Some; congruence).
        destruct (nth_error (reads tr) r0) as [l0|] eqn:El0; [|apply nth_error_None in El0; lia].
        destruct (R3 _ _ _ Ha El0) as (_ & prev0 & js0 & _ & _ & Hg0). rewrite Hx in Hg0.
        destruct Hg0 as (_ & _ & _ & g0 & Hg0 & Hk0). rewrite Eg in Hg0. injection Hg0 as <-.
        apply (clone_cons g None 0) in Hk0 as [_ Hk0]. cbn in Hk0. auto. }
      intros r1 r2 a b y Ha Hb Hx Hy. apply Old in Ha as [[-> ->]|[Na Ha]]; apply Old in Hb as [[-> ->]|[Nb Hb]]; auto.
      * cbn in Hx. injection Hx as <-. exfalso. eapply Nu; eauto.
      * cbn in Hy. injection Hy as <-. exfalso. eapply Nu; eauto.
      * eapply R4; eauto.
Qed.

Lemma sorted_snoc js j : StronglySorted lt js -> Forall (fun i => i < j) js -> StronglySorted lt (js ++ [j]).
Proof.
  induction js as [|i js IH]; cbn; intros Hs Hf.
  - repeat constructor.
  - inversion Hs; subst. inversion Hf; subst. constructor; auto. apply Forall_app. auto.
Qed.

(** The reader reads its group's frame: what it returns depends only on how far the publication is. *)
Lemma step_frame w m init s tr r s' x : cinv init s tr -> cstep w m s (CFrame r) = (s', x) ->
  cinv init s' (tr ++ [(CFrame r, x)]) /\ x <> CPanic /\ (forall e, x <> CErr e) /\
  forall rd j c, nth_error (cs_readers s) r = Some rd -> cr_group rd = Some (j, c) ->
    exists c0 , nth_error (snaps init tr) j = Some c0 /\
    ((S j < length (snaps init tr) \/ (forall p k, cs_lock s <> Held p k)) -> x = CRead (parse (json c0))).
Proof.
  intros I. pose proof I as [P R]. cbn [Catalog.cstep].
  destruct (nth_error (cs_readers s) r) as [rd|] eqn:Er;
    [|intros H; injection H as <- <-; split; [apply cinv_unchanged; [auto|split; reflexivity|reflexivity]|repeat split; discriminate]].
  destruct (cr_group rd) as [[j c]|] eqn:Egr;
    [|intros H; injection H as <- <-; split; [apply cinv_unchanged; [auto|split; reflexivity|reflexivity]|repeat split; congruence]].
  pose proof R as [R1 R2 R3 R4]. pose proof P as [C (sh & Lk & G) T].
  assert (Lr : r < length (cs_readers s)) by (apply nth_error_Some; congruence).
  destruct (nth_error (reads tr) r) as [l|] eqn:El; [|apply nth_error_None in El; lia].
  destruct (R3 _ _ _ Er El) as (Et & prev & js & Hp & Hgot & Hg). rewrite Egr in Hg.
  destruct Hg as (Hprev & Hjs & C0 & g & Hj & Hk). rewrite Hj.
  destruct (shape_at _ _ _ _ _ P Hj) as (k & c0 & Hc0 & Sg & Hst & Hfull).
  assert (Lj : j < length (cs_groups s)) by (apply nth_error_Some; congruence).
  assert (X : exists y, get (gs_cons g) c = Some y /\ (y = GC 0 None \/ (y = GC 1 (Some (0, 0)) /\ gs_frames g <> []))).
  { destruct Hk as [Hk|[Hk Hk']]; eauto. }
  destruct X as (y & Hy & Hyy). cbn [gstep]. rewrite Hy.
  destruct (gsh_read _ _ _ _ Sg Hyy) as (z & Ez & Hz). rewrite Ez.
  assert (Others : forall r0 a l0 t, r0 <> r -> nth_error (cs_readers s) r0 = Some a -> nth_error (reads tr) r0 = Some l0 ->
     rok (ts_cons (cs_track s)) (set_nth j (gwith_cons g (set_nth c t (gs_cons g))) (cs_groups s)) (snaps init tr ++ []) l0 r0 a).
  { intros r0 a l0 t Nr Ha Hl0. eapply rok_ext; [eauto|auto|rewrite set_nth_length; auto|].
    intros j0 c1 g0 Hx Hj0 Hk0. destruct (Nat.eq_dec j0 j) as [->|Nj].
    - rewrite Hj in Hj0. injection Hj0 as <-. eexists. split; [apply nth_error_set_eq; auto|].
      assert (Nc : c <> c1). { intros ->. apply Nr. eapply R4; eauto. }
      unfold cons_ok in *. cbn [gs_cons gs_frames gwith_cons]. rewrite get_set_ne by auto. auto.
    - exists g0. rewrite nth_error_set_ne by auto. auto. }
  assert (Hgs : forall t shapes, Forall2 gsh shapes (cs_groups s) -> Forall2 gsh shapes (set_nth j (gwith_cons g (set_nth c t (gs_cons g))) (cs_groups s))).
  { intros t. apply (Forall2_replace _ _ g); auto. intros v Hv. apply gsh_cons; auto. rewrite get_set_ne by auto.
    destruct v. unfold gsh in Hv. tauto. }
  assert (Tok : forall t rs, trackok (cwith_readers (cwith_groups s (set_nth j t (cs_groups s))) rs)).
  { intros t rs. eapply trackok_ext; [exact T|..]; cbn; auto. rewrite set_nth_length. auto. }
  destruct (Nat.leb_spec k 2) as [K|K].
  - intros H. injection H as <- <-. split; [split|].
    + eapply pinv_same; eauto; [split; reflexivity|apply Hgs|apply (Tok _ (cs_readers s))].
    + split; cbn [cs_cur cs_lock cs_groups cs_track cs_readers cwith_groups]; rewrite ?reads_snoc; cbn [read_event]; auto.
      intros r0 a l0 Ha Hl0. rewrite snaps_snoc. destruct (Nat.eq_dec r0 r) as [->|Nr]; [|apply Others; auto].
      rewrite Er in Ha. injection Ha as <-. rewrite El in Hl0. injection Hl0 as <-.
      split; auto. exists prev, js. split; auto. split; [apply got_ext; auto|]. rewrite Egr. repeat (split; auto).
      eexists. split; [apply nth_error_set_eq; auto|]. unfold cons_ok. cbn [gs_cons gs_frames gwith_cons].
      rewrite (get_set_eq _ _ _ _ Hy). destruct (Hz K) as [->|[-> F]]; auto.
    + repeat (split; [discriminate|]). intros rd0 j0 c1 Hr0 Hx. injection Hr0 as <-. rewrite Egr in Hx. injection Hx as <- <-.
      exists c0. split; auto. intros [Hf|Hf].
      * specialize (Hfull Hf). lia.
      * destruct Hst as [->|(p & q & Hl & _)]; [lia|]. destruct (Hf _ _ Hl).
  - intros H. injection H as <- <-. split; [split|].
    + eapply pinv_same; eauto; [split; reflexivity|apply Hgs].
    + assert (Old : forall r0 a, nth_error (set_nth r (CReader (cr_track rd) None) (cs_readers s)) r0 = Some a ->
        (r0 = r /\ a = CReader (cr_track rd) None) \/ (r0 <> r /\ nth_error (cs_readers s) r0 = Some a)).
      { intros r0 a Ha. destruct (Nat.eq_dec r0 r) as [->|Nr].
        - rewrite nth_error_set_eq in Ha by auto. injection Ha as <-. auto.
        - rewrite nth_error_set_ne in Ha by auto. auto. }
      split; cbn [cs_cur cs_lock cs_groups cs_track cs_readers cwith_groups cwith_readers]; rewrite ?reads_snoc; cbn [read_event];
        rewrite ?set_nth_length; auto.
      * intros r0 a l0 Ha Hl0. rewrite snaps_snoc. apply Old in Ha as [[-> ->]|[Nr Ha]].
        -- rewrite nth_error_set_eq in Hl0 by lia. injection Hl0 as <-. split; auto. exists prev, (js ++ [j]). split; auto.
           split; [|right; exists js, j; rewrite set_nth_length; auto].
           apply got_ext. destruct Hgot as [G1 G2]. rewrite (nth_error_nth_d _ _ _ _ El). split.
           ++ apply sorted_snoc; auto.
           ++ apply Forall2_app; auto. constructor; auto. exists c0. auto.
        -- rewrite nth_error_set_ne in Hl0 by auto. apply Others; auto.
      * intros r1 r2 a b y0 Ha Hb Hx Hy0. apply Old in Ha as [[-> ->]|[Na Ha]]; [discriminate|].
        apply Old in Hb as [[-> ->]|[Nb Hb]]; [discriminate|]. eapply R4; eauto.
    + repeat (split; [discriminate|]). intros rd0 j0 c1 Hr0 Hx. injection Hr0 as <-. rewrite Egr in Hx. injection Hx as <- <-.
      exists c0. auto.
Qed.

Lemma step_clone_reader w m init s tr r s' x : cinv init s tr -> cstep w m s (CRClone r) = (s', x) ->
  cinv init s' (tr ++ [(CRClone r, x)]).
Proof.
  intros I. pose proof I as [P R]. cbn [Catalog.cstep].
  destruct (nth_error (cs_readers s) r) as [rd|] eqn:Er;
    [|intros H; injection H as <- <-; apply cinv_unchanged; [auto|split; reflexivity|reflexivity]].
  pose proof R as [R1 R2 R3 R4]. pose proof P as [C (sh & Lk & G) T].
  assert (Lr : r < length (cs_readers s)) by (apply nth_error_Some; congruence).
  destruct (nth_error (reads tr) r) as [l|] eqn:El; [|apply nth_error_None in El; lia].
  destruct (R3 _ _ _ Er El) as (Et & prev & js & Hp & Hgot & Hg). rewrite Et. cbn [tstep]. rewrite Hp.
  cbn [cs_groups cs_readers cwith_track].
  assert (Els : nth r (reads tr) [] = l) by (apply nth_error_nth; auto).
  destruct (cr_group rd) as [[j c]|] eqn:Egr.
  - destruct Hg as (Hprev & Hjs & C0 & g & Hj & Hk). rewrite Hj.
    assert (Lj : j < length (cs_groups s)) by (apply nth_error_Some; congruence).
    assert (X : exists y, get (gs_cons g) c = Some y /\ (y = GC 0 None \/ (y = GC 1 (Some (0, 0)) /\ gs_frames g <> []))).
    { destruct Hk as [Hk|[Hk Hk']]; eauto. }
    destruct X as (y & Hy & Hyy). cbn [gstep]. rewrite Hy. intros H. injection H as <- <-.
    destruct (shape_at _ _ _ _ _ P Hj) as (k & c0 & Hc0 & Sg & _ & _).
    assert (K0 : get (gs_cons g) 0 = Some (GC 0 None)) by (destruct Sg as (_ & _ & _ & _ & _ & ?); auto).
    assert (Lc : length (gs_cons g) <> 0) by (apply get_lt in K0; lia).
    split.
    + eapply pinv_same; eauto; cbn [cs_cur cs_lock cs_groups cs_track cs_readers cwith_track cwith_readers cwith_groups].
      * split; reflexivity.
      * apply (Forall2_replace _ _ g); auto. intros v Hv. apply gsh_cons; auto. apply get_app_old. auto.
      * eapply trackok_ext; [exact T|..]; cbn; auto. rewrite set_nth_length. auto.
    + split; cbn [cs_cur cs_lock cs_groups cs_track cs_readers cwith_track cwith_readers cwith_groups ts_cons twith_cons];
        rewrite ?reads_snoc; cbn [read_event]; rewrite ?app_length; cbn [length]; try lia.
      * intros r0 a l0 Ha Hl0. rewrite snaps_snoc. apply nth_error_split2 in Ha as [[Lr0 Ha]|[-> ->]].
        -- rewrite nth_error_app1 in Hl0 by lia. pose proof (R3 _ _ _ Ha Hl0) as Hok.
           eapply rok_ext; [eauto| |rewrite set_nth_length; auto|].
           ++ destruct Hok as (_ & prev0 & js0 & Hp0 & _). rewrite (get_app_old _ _ _ _ Hp0). auto.
           ++ intros j0 c1 g0 _ Hj0 Hk0. destruct (Nat.eq_dec j0 j) as [->|Nj].
              ** rewrite Hj in Hj0. injection Hj0 as <-. eexists. split; [apply nth_error_set_eq; auto|].
                 apply (clone_cons g (Some y) 0); auto.
              ** exists g0. rewrite nth_error_set_ne by auto. auto.
        -- rewrite <- R2, nth_last in Hl0. injection Hl0 as <-. rewrite Els. split; cbn [cr_track cr_group]; auto.
           exists prev, js. rewrite get_app, <- R1, Nat.eqb_refl. split; auto. split; [apply got_ext; auto|].
           repeat (split; auto). eexists. split; [apply nth_error_set_eq; auto|].
           unfold cons_ok. cbn [gs_cons gs_frames gwith_cons]. rewrite get_app, Nat.eqb_refl. destruct Hyy as [->|[-> F]]; auto.
      * assert (Nu : forall r0 a, nth_error (cs_readers s) r0 = Some a -> cr_group a <> Some (j, length (gs_cons g))).
        { intros r0 a Ha Hx. assert (Lr0 : r0 < length (cs_readers s)) by (apply nth_error_Some; congruence).
          destruct (nth_error (reads tr) r0) as [l0|] eqn:El0; [|apply nth_error_None in El0; lia].
          destruct (R3 _ _ _ Ha El0) as (_ & prev0 & js0 & _ & _ & Hg0). rewrite Hx in Hg0.
          destruct Hg0 as (_ & _ & _ & g0 & Hg0 & Hk0). rewrite Hj in Hg0. injection Hg0 as <-.
          apply (clone_cons g None 0) in Hk0 as [_ Hk0]. cbn in Hk0. auto. }
        intros r1 r2 a b v Ha Hb Hx Hw.
        apply nth_error_split2 in Ha as [[La Ha]|[-> ->]]; apply nth_error_split2 in Hb as [[Lb Hb]|[-> ->]]; auto.
        -- eapply R4; eauto.
        -- cbn in Hw. injection Hw as <-. exfalso. eapply Nu; eauto.
        -- cbn in Hx. injection Hx as <-. exfalso. eapply Nu; eauto.
  - intros H. injection H as <- <-. split.
    + eapply pinv_same; eauto; [split; reflexivity|]. eapply trackok_ext; [exact T|..]; auto.
    + split; cbn [cs_cur cs_lock cs_groups cs_track cs_readers cwith_track cwith_readers ts_cons twith_cons];
        rewrite ?reads_snoc; cbn [read_event]; rewrite ?app_length; cbn [length]; try lia.
      * intros r0 a l0 Ha Hl0. rewrite snaps_snoc. apply nth_error_split2 in Ha as [[Lr0 Ha]|[-> ->]].
        -- rewrite nth_error_app1 in Hl0 by lia. pose proof (R3 _ _ _ Ha Hl0) as Hok. eapply rok_ext; eauto.
           destruct Hok as (_ & prev0 & js0 & Hp0 & _). rewrite (get_app_old _ _ _ _ Hp0). auto.
        -- rewrite <- R2, nth_last in Hl0. injection Hl0 as <-. rewrite Els. split; cbn [cr_track cr_group]; auto.
           exists prev, js. rewrite get_app, <- R1, Nat.eqb_refl. split; auto. split; [apply got_ext; auto|]. auto.
      * intros r1 r2 a b v Ha Hb Hx Hw.
        apply nth_error_split2 in Ha as [[La Ha]|[-> ->]]; [|discriminate].
        apply nth_error_split2 in Hb as [[Lb Hb]|[-> ->]]; [|discriminate]. eapply R4; eauto.
Qed.

(** * Executions *)
Lemma step_any w m init s tr o s' x : cinv init s tr -> fits w init tr -> cstep w m s o = (s', x) ->
  cinv init s' (tr ++ [(o, x)]).
Proof.
  intros I F Hs. destruct o.
  - eapply step_change; eauto.
  - eapply step_lock; eauto.
  - destruct (cs_lock s) as [| |p k] eqn:El.
    1, 2: cbn [Catalog.cstep] in Hs; rewrite El in Hs; injection Hs as <- <-; apply cinv_unchanged; [auto|split; reflexivity|reflexivity].
    pose proof (step_publish w m init s tr p k (proj1 I) F El) as H. rewrite Hs in H.
    destruct H as (P & Gr & Er & Ec & _). split; auto. eapply rinv_same; eauto; apply I.
  - eapply step_handle; eauto.
  - eapply step_handle; eauto.
  - eapply step_handle; eauto.
  - eapply step_new_reader; eauto.
  - eapply step_track; eauto.
  - eapply step_frame; eauto.
  - eapply step_clone_reader; eauto.
Qed.

Lemma crun_snoc w m s ops o :
  crun w m s (ops ++ [o]) = let (s1, tr) := crun w m s ops in let (s2, x) := cstep w m s1 o in (s2, tr ++ [(o, x)]).
Proof.
  revert s; induction ops as [|p ops IH]; intros s; cbn [app Catalog.crun].
  - destruct (Catalog.cstep _ _ _ _ _ _ s o). reflexivity.
  - destruct (Catalog.cstep _ _ _ _ _ _ s p) as [s1 x]. rewrite IH. destruct (Catalog.crun _ _ _ _ _ _ s1 ops) as [s2 tr].
    destruct (Catalog.cstep _ _ _ _ _ _ s2 o). reflexivity.
Qed.

Lemma cinv_run w m init ops : forall s tr, crun w m (csys_new init) ops = (s, tr) -> fits w init tr -> cinv init s tr.
Proof.
  induction ops as [|o ops IH] using rev_ind; intros s tr.
  - cbn. intros H. injection H as <- <-. intros _. apply cinv_new.
  - rewrite crun_snoc. destruct (crun w m (csys_new init) ops) as [s1 tr1] eqn:E.
    destruct (cstep w m s1 o) as [s2 x] eqn:E2. intros H. injection H as <- <-. intros F.
    pose proof (fits_snoc _ _ _ _ F) as F1. eapply step_any; eauto.
Qed.

Lemma snaps_describe init tr j c : nth_error (snaps init tr) j = Some c ->
  exists ds, nth_error (publications [] tr) j = Some ds /\ describes init ds c.
Proof.
  unfold snaps. rewrite nth_error_map. destruct (nth_error _ j) as [ds|]; [|discriminate]. intros H. injection H as <-.
  exists ds. split; auto. apply cat_of_describes.
Qed.

(** Bounds in terms of what is published. *)
Notation in_bounds := (in_bounds veq aeq json).
Lemma in_bounds_fits w init tr : in_bounds w init tr -> fits w init tr.
Proof.
  intros [H1 H2]. split.
  - apply Forall_forall. intros c Hc. unfold snaps in Hc. apply in_map_iff in Hc as (ds & <- & Hd). eapply H1; eauto.
    apply cat_of_describes.
  - unfold snaps. rewrite map_length. auto.
Qed.

Lemma catalog_reads w m init ops s tr r l : crun w m (csys_new init) ops = (s, tr) -> in_bounds w init tr ->
  nth_error (reads tr) r = Some l ->
  exists js, StronglySorted lt js /\
    Forall2 (fun j x => exists ds c, nth_error (publications [] tr) j = Some ds /\ describes init ds c /\ x = parse (json c)) js l.
Proof.
  intros Hr Hb Hl. apply in_bounds_fits in Hb. destruct (cinv_run _ _ _ _ _ _ Hr Hb) as [P [R1 R2 R3 R4]].
  destruct (nth_error (cs_readers s) r) as [rd|] eqn:Er.
  - destruct (R3 _ _ _ Er Hl) as (_ & prev & js & _ & [G1 G2] & _). exists js. split; auto.
    eapply Forall2_impl; [|exact G2]. cbn. intros j x (c & Hc & ->). destruct (snaps_describe _ _ _ _ Hc) as (ds & Hd & D). eauto 10.
  - apply nth_error_None in Er. assert (r < length (reads tr)) by (apply nth_error_Some; congruence). lia.
Qed.

(** Nothing is being published, the reader has nothing to do: it has the newest. *)
Lemma catalog_latest w m init ops s tr r : crun w m (csys_new init) ops = (s, tr) -> in_bounds w init tr ->
  snd (cstep w m s CStep) = CBad -> snd (cstep w m s (CTrack r)) = CPend ->
  (snd (cstep w m s (CFrame r)) = CPend \/ snd (cstep w m s (CFrame r)) = CNothing) ->
  forall l, nth_error (reads tr) r = Some l ->
  match rev (publications [] tr) with
  | [] => l = []
  | ds :: _ => exists l0 c, l = l0 ++ [parse (json c)] /\ describes init ds c
  end.
Proof.
  intros Hr Hb Hst Htr Hfr l Hl. apply in_bounds_fits in Hb. pose proof (cinv_run _ _ _ _ _ _ Hr Hb) as I.
  pose proof I as [P [R1 R2 R3 R4]]. pose proof P as [C (sh & Lk & G) T].
  destruct (nth_error (cs_readers s) r) as [rd|] eqn:Er; cycle 1.
  { apply nth_error_None in Er. assert (r < length (reads tr)) by (apply nth_error_Some; congruence). lia. }
  destruct (R3 _ _ _ Er Hl) as (Et & prev & js & Hp & [G1 G2] & Hg).
  (* the poll of the track *)
  cbn [Catalog.cstep] in Htr. rewrite Er, Et in Htr. cbn [tstep] in Htr. rewrite Hp in Htr. unfold track_next in Htr.
  destruct (ts_closed (cs_track s)) as [o|] eqn:Ec.
  { rewrite orb_true_r in Htr. destruct o; discriminate. }
  rewrite orb_false_r in Htr.
  assert (Ng : opt_gt (option_map g_seq (ts_latest (cs_track s))) prev = false).
  { destruct (opt_gt (option_map g_seq (ts_latest (cs_track s))) prev); auto. exfalso.
    destruct (ts_latest (cs_track s)) as [gr|]; [|discriminate].
    destruct (nth_error (cs_groups _) (g_id gr)) as [g|]; [|discriminate]. cbn in Htr. destruct (get (gs_cons g) 0); discriminate. }
  (* the lock is free *)
  assert (Lf : cs_lock s = Free).
  { destruct (cs_lock s) as [| |p k] eqn:El; auto.
    - destruct (to_bad _ T El). auto.
    - pose proof (step_publish w m init s tr p k P Hb El) as H. destruct (cstep w m s CStep) as [s' x]. cbn in Hst. subst x.
      destruct H as (_ & _ & _ & _ & _ & [H|H] & _); discriminate. }
  rewrite Lf in Lk. inversion Lk as [E1| | |]. subst sh.
  assert (Ln : length (cs_groups s) = length (snaps init tr)) by (rewrite <- (Forall2_length _ _ _ G), map_length; auto).
  rewrite (to_latest _ T) in Ng.
  assert (Ls : length (snaps init tr) = length (publications [] tr)) by (unfold snaps; apply map_length).
  destruct (rev (publications [] tr)) as [|ds rest] eqn:Ep.
  - apply (f_equal (@length _)) in Ep. rewrite rev_length in Ep. cbn in Ep.
    assert (js = []) as ->; [|inversion G2; auto]. destruct (cr_group rd) as [[j c]|].
    + destruct Hg as (_ & _ & _ & g & Hj & _). assert (j < length (cs_groups s)) by (apply nth_error_Some; congruence). lia.
    + destruct Hg as [[_ ->]|(js0 & j & _ & _ & Lj)]; auto. lia.
  - assert (Epub : publications [] tr = rev rest ++ [ds]) by (rewrite <- (rev_involutive (publications [] tr)), Ep; reflexivity).
    assert (Lp : length (publications [] tr) = S (length rest)) by (rewrite Epub, app_length, rev_length; cbn; lia).
    assert (Hlast : nth_error (publications [] tr) (length rest) = Some ds).
    { rewrite Epub, <- (rev_length rest). apply nth_last. }
    assert (Len : length (cs_groups s) = S (length rest)) by lia. rewrite Len in Ng. cbn [latest_of option_map g_seq] in Ng.
    assert (Prev : forall j, prev = Some (N.of_nat j) -> j < length (cs_groups s) -> j = length rest).
    { intros j -> Lj. cbn in Ng. apply N.ltb_ge in Ng. lia. }
    destruct (cr_group rd) as [[j c]|] eqn:Egr.
    + exfalso. destruct (cstep w m s (CFrame r)) as [s2 x] eqn:Ef. cbn in Hfr.
      destruct (step_frame w m init s tr r s2 x I Ef) as (_ & _ & _ & Hx).
      destruct (Hx _ _ _ Er Egr) as (c0 & Hc0 & Hread). rewrite Hread in Hfr; [destruct Hfr; discriminate|].
      right. intros p k Hk. rewrite Lf in Hk. discriminate.
    + destruct Hg as [[-> _]|(js0 & j & -> & Hpr & Lj)]; [discriminate|]. pose proof (Prev j Hpr Lj) as ->.
      apply Forall2_app_inv_l in G2 as (l0 & l1 & F1 & F2 & ->). inversion F2 as [|a b ? ? (c & Hc & ->) F3]; subst.
      inversion F3; subst. exists l0, c. split; auto. destruct (snaps_describe _ _ _ _ Hc) as (ds' & Hd & D). congruence.
Qed.

(** A group taken while nothing is being published is the newest, complete. *)
Lemma catalog_next w m init ops s tr r s' s2 x : crun w m (csys_new init) ops = (s, tr) -> in_bounds w init tr ->
  snd (cstep w m s CStep) = CBad -> cstep w m s (CTrack r) = (s', CGroup) -> cstep w m s' (CFrame r) = (s2, x) ->
  exists pre ds c, publications [] tr = pre ++ [ds] /\ describes init ds c /\ x = CRead (parse (json c)).
Proof.
  intros Hr Hb Hst Htr Hfr. apply in_bounds_fits in Hb. pose proof (cinv_run _ _ _ _ _ _ Hr Hb) as I.
  pose proof I as [P [R1 R2 R3 R4]]. pose proof P as [C (sh & Lk & G) T].
  assert (Nh : forall p k, cs_lock s <> Held p k).
  { intros p k El. pose proof (step_publish w m init s tr p k P Hb El) as H. destruct (cstep w m s CStep) as [s1 y]. cbn in Hst. subst y.
    destruct H as (_ & _ & _ & _ & _ & [H|H] & _); discriminate. }
  destruct (step_track w m init s tr r s' CGroup I Htr) as (I' & _).
  cbn [Catalog.cstep] in Htr. destruct (nth_error (cs_readers s) r) as [rd|] eqn:Er; [|discriminate].
  assert (Lr : r < length (cs_readers s)) by (apply nth_error_Some; congruence).
  destruct (nth_error (reads tr) r) as [l|] eqn:El; [|apply nth_error_None in El; lia].
  destruct (R3 _ _ _ Er El) as (Et & prev & js & Hp & _).
  rewrite Et in Htr. cbn [tstep] in Htr. rewrite Hp in Htr. unfold track_next in Htr.
  destruct (ts_closed (cs_track s)) as [o|] eqn:Ec.
  { rewrite orb_true_r in Htr. destruct o; discriminate. }
  destruct (opt_gt _ _ || false); [|destruct (tsys_alive (cs_track s)); discriminate].
  rewrite (to_latest _ T) in Htr. destruct (length (cs_groups s)) as [|n] eqn:Ln; cbn [latest_of] in Htr; [discriminate|].
  cbn [g_id cs_groups cwith_track] in Htr. destruct (nth_error (cs_groups s) n) as [g|] eqn:Eg; [|discriminate].
  destruct (gstep w g (GCClone 0)) as [g' y] eqn:Egc. injection Htr as <-.
  match type of Hfr with Catalog.cstep _ _ _ _ _ _ ?S0 _ = _ => set (s1 := S0) in * end.
  destruct (step_frame w m init s1 _ r s2 x I' Hfr) as (_ & _ & _ & Hx).
  destruct (Hx (CReader r (Some (n, length (gs_cons g)))) n (length (gs_cons g))) as (c & Hc & Hread).
  { cbn. apply nth_error_set_eq; auto. }
  { reflexivity. }
  rewrite snaps_snoc in Hc. cbn in Hc. rewrite app_nil_r in Hc.
  assert (Lf : cs_lock s = Free).
  { destruct (cs_lock s) as [| |p k] eqn:Elk; auto.
    - destruct (to_bad _ T Elk). auto.
    - destruct (Nh p k); auto. }
  rewrite Lf in Lk. inversion Lk as [E1| | |]. subst sh.
  assert (Lns : length (cs_groups s) = length (snaps init tr)) by (rewrite <- (Forall2_length _ _ _ G), map_length; auto).
  destruct (snaps_describe _ _ _ _ Hc) as (ds & Hd & D).
  assert (Lp : length (publications [] tr) = S n).
  { unfold snaps in Lns. rewrite map_length in Lns. lia. }
  destruct (publications [] tr) as [|d0 rest] using rev_ind; [destruct n; discriminate|].
  rewrite app_length in Lp. cbn in Lp. assert (length rest = n) as <- by lia. rewrite nth_last in Hd. injection Hd as ->.
  exists rest, ds, c. conjs; auto.
Qed.
End CatalogP.
