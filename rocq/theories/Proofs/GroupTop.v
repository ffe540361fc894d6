From Coq Require Import NArith ZArith List Lia Bool.
From Coq Require Import Init.Byte Strings.Byte.
From Coq Require Import ZifyBool ZifyNat ZifyN.
From Verif.Model Require Import Base ErrorCode Stream Frame FrameSys GroupSys.
From Verif.Spec Require Import FrameSpec GroupSpec.
From Verif.Proofs Require Import BaseP TableP FrameP GroupP.
Import ListNotations.
Open Scope nat_scope.

(** * C23 *)
Lemma obtained_in_order w ops c :
  let r := grun w gsys_new ops in
  let got := nth c (obtained (snd r)) [] in
  length got <= length (appended (snd r)) /\
  Forall2 (item_is (gs_heap (fst r))) got (firstn (length got) (appended (snd r))).
Proof.
  intros r got. pose proof (ginv_run w ops) as [I1 _ _ _ I5]. fold r in I1, I5.
  destruct (Nat.lt_ge_cases c (length (obtained (snd r)))) as [L|L].
  - assert (exists x, nth_error (gs_cons (fst r)) c = Some x) as [x Hx].
    { destruct (nth_error (gs_cons (fst r)) c) eqn:E; eauto. apply nth_error_None in E.
      rewrite (Forall2_len _ _ _ I5) in E. lia. }
    pose proof (Forall2_nth_error _ _ _ _ _ _ I5 Hx (nth_error_nth' (A:=list item) _ [] L)) as (P1 & P2 & _).
    fold got in P1, P2. rewrite I1 in *. auto.
  - unfold got. rewrite nth_overflow by auto. cbn. split; auto. lia.
Qed.

Lemma gclosed_step w s o s' x : gstep w s o = (s', x) -> gs_closed s <> None ->
  gs_closed s' <> None /\ append_of (o, x) = [].
Proof.
  intros H C. unfold gstep in H.
  destruct o as [size|f o|p f c|p|p e|p|p|p| |p|c|c|c|c];
  try (destruct (get (gs_prods s) p)); try (destruct (get (gs_cons s) c));
  try (destruct (nth_error (gs_heap s) f)); try (destruct (get (sy_cons _) c));
  try destruct (fstep w _ _); try destruct (gs_guards s);
  try destruct (group_next _ _ _ _) as [[]]; try destruct (group_read _ _ _ _ _) as [[]|];
  cbn in H; try destruct (gs_closed s) eqn:?; try congruence; injection H as <- <-; cbn; split; try congruence; auto.
Qed.
Lemma gclosed_run w ops s : gs_closed s <> None -> appended (snd (grun w s ops)) = [].
Proof.
  revert s; induction ops; intros; cbn; auto.
  destruct (gstep w s a) eqn:E. destruct (gclosed_step _ _ _ _ _ E H) as [H1 H2].
  specialize (IHops _ H1). destruct (grun w g ops). cbn in *. rewrite H2, IHops. auto.
Qed.
Lemma gtrace_split w ops s tr1 e tr2 :
  snd (grun w s ops) = tr1 ++ e :: tr2 ->
  exists ops1 o ops2, ops = ops1 ++ o :: ops2 /\ snd (grun w s ops1) = tr1 /\
    gstep w (fst (grun w s ops1)) o = (fst (grun w s (ops1 ++ [o])), snd e) /\ fst e = o /\
    snd (grun w (fst (grun w s (ops1 ++ [o]))) ops2) = tr2.
Proof.
  revert s tr1; induction ops; intros s tr1 H; cbn in H.
  - destruct tr1; discriminate.
  - destruct (gstep w s a) as [s1 x] eqn:E. destruct (grun w s1 ops) as [s2 tr] eqn:R. cbn in H.
    destruct tr1 as [|e1 tr1]; injection H as <- H.
    + subst tr2. exists [], a, ops. cbn. rewrite E. cbn. rewrite R. cbn. repeat split; auto.
    + replace tr with (snd (grun w s1 ops)) in H by (rewrite R; auto).
      destruct (IHops _ _ H) as (o1 & o & o2 & -> & H1 & H2 & H3 & H4).
      exists (a :: o1), o, o2. cbn. rewrite E.
      destruct (grun w s1 o1) eqn:?. cbn in *. destruct (grun w s1 (o1 ++ [o])) eqn:?. cbn in *. subst. auto.
Qed.

Lemma appended_mid a e b : appended (a ++ e :: b) = appended a ++ append_of e ++ appended b.
Proof. unfold appended. rewrite flat_map_app. auto. Qed.

Lemma group_end_all w ops tr1 e tr2 c :
  let tr := snd (grun w gsys_new ops) in
  tr = tr1 ++ e :: tr2 -> group_told_end e c ->
  length (nth c (obtained tr1) []) = length (appended tr).
Proof.
  intros tr H T. destruct (gtrace_split _ _ _ _ _ _ H) as (o1 & o & o2 & -> & H1 & H2 & H3 & H4).
  pose proof (ginv_run w o1) as I. rewrite H1 in I. set (s := fst (grun w gsys_new o1)) in *.
  assert (K : gs_closed s = Some Finished /\ length (nth c (obtained tr1) []) = length (gs_frames s)).
  { destruct e as [o' x]. cbn in H3, H2. subst o'. unfold gstep in H2.
    destruct T as [T|T]; injection T as -> ->.
    - destruct (get (gs_cons s) c) as [g|] eqn:G; [|discriminate].
      destruct (greader_at _ _ _ _ I G) as [L R].
      destruct (group_next_cases (gsys_alive s) _ _ (gs_closed s) _ _ R) as (a & g' & E & P).
      rewrite E in H2. destruct a as [[]| | |]; try discriminate. tauto.
    - destruct (get (gs_cons s) c) as [g|] eqn:G; [|discriminate].
      destruct (greader_at _ _ _ _ I G) as [L R].
      destruct (group_read_cases (gsys_alive s) _ _ (gs_closed s) _ _ R (gi_entries _ _ I)) as (a & g' & E & P).
      rewrite E in H2. destruct a as [[]| | |]; try discriminate. tauto. }
  destruct K as [C L]. destruct (gclosed_step w s o _ _ H2) as [C' W0]; [congruence|].
  assert (W2 : appended tr2 = []) by (rewrite <- H4; apply gclosed_run; auto).
  assert (Wa : appended tr = appended tr1).
  { rewrite H. etransitivity; [apply (appended_mid tr1 e tr2)|]. rewrite W2.
    destruct e as [o' x]. cbn [fst snd] in *. subst o'. rewrite W0. cbn. apply app_nil_r. }
  rewrite Wa, L. f_equal. apply I.
Qed.

(** * C24 *)
Definition crel (frames : list entry) (x y : option gcons) : Prop :=
  x = y \/ exists i e, x = Some (GC i None) /\ y = Some (GC (S i) (Some e)) /\ nth_error frames i = Some e.
Definition srel (s t : gsys) : Prop :=
  gs_heap s = gs_heap t /\ gs_frames s = gs_frames t /\ gs_closed s = gs_closed t /\ gs_prods s = gs_prods t /\
  gs_guards s = gs_guards t /\ Forall2 (crel (gs_frames s)) (gs_cons s) (gs_cons t).

Lemma crel_refl frames l : Forall2 (crel frames) l l.
Proof. induction l; auto. constructor; auto. left; auto. Qed.
Lemma crel_grow frames more l m : Forall2 (crel frames) l m -> Forall2 (crel (frames ++ more)) l m.
Proof.
  intros H. eapply Forall2_impl; [|exact H]. intros a b [->|(i & e & -> & -> & E)]; [left; auto|right].
  exists i, e. repeat split; auto. rewrite nth_error_app1; auto. apply nth_error_Some. congruence.
Qed.

Lemma crel_get frames l m c : Forall2 (crel frames) l m ->
  crel frames (get l c) (get m c) /\ (get l c = None <-> get m c = None).
Proof.
  intros H. unfold get. destruct (nth_error l c) as [x|] eqn:E.
  - destruct (nth_error m c) as [y|] eqn:F.
    + pose proof (Forall2_nth_error _ _ _ _ _ _ H E F) as [->|(i & e & -> & -> & K)].
      * destruct y; split; try (left; reflexivity); tauto.
      * split; [right; eauto 6|]. split; discriminate.
    + apply nth_error_None in F. rewrite <- (Forall2_len _ _ _ H) in F.
      assert (c < length l) by (apply nth_error_Some; congruence). lia.
  - destruct (nth_error m c) as [y|] eqn:F.
    + apply nth_error_None in E. rewrite (Forall2_len _ _ _ H) in E.
      assert (c < length m) by (apply nth_error_Some; congruence). lia.
    + split; [left; auto|tauto].
Qed.

Lemma group_next_rel alive frames closed i e :
  nth_error frames i = Some e ->
  group_next alive frames closed (GC i None) = group_next alive frames closed (GC (S i) (Some e)).
Proof. intros H. unfold group_next. cbn. rewrite H. auto. Qed.
Lemma group_read_rel alive h frames closed i e :
  nth_error frames i = Some e ->
  group_read alive h frames closed (GC i None) = group_read alive h frames closed (GC (S i) (Some e)).
Proof. intros H. unfold group_read, group_next. cbn. rewrite H. destruct e. auto. Qed.

Lemma srel_step w s t o s' x : srel s t -> gstep w s o = (s', x) ->
  exists t', gstep w t o = (t', x) /\ srel s' t'.
Proof.
  intros (E1 & E2 & E3 & E4 & E5 & R) H. unfold gstep in *. unfold gsys_alive in *.
  rewrite <- E1, <- E2, <- E3, <- E4, <- E5.
  assert (Triv : forall c, get (gs_cons s) c = None -> get (gs_cons t) c = None)
    by (intros c; apply (crel_get _ _ _ c R)).
  destruct o as [size|f o|p f c|p|p e|p|p|p| |p|c|c|c|c].
  - injection H as <- <-. eexists. split; [reflexivity|]. repeat split; cbn; auto; congruence.
  - destruct (nth_error (gs_heap s) f); [destruct (fstep w f0 o)|]; injection H as <- <-; (eexists; split; [reflexivity|]);
      repeat split; cbn; auto; congruence.
  - destruct (get (gs_prods s) p); [|injection H as <- <-; eexists; split; [reflexivity|]; repeat split; auto].
    destruct (nth_error (gs_heap s) f) as [fs|]; [|injection H as <- <-; eexists; split; [reflexivity|]; repeat split; auto].
    destruct (get (sy_cons fs) c); [|injection H as <- <-; eexists; split; [reflexivity|]; repeat split; auto].
    cbn in *. rewrite <- E3. destruct (gs_closed s) eqn:C; injection H as <- <-; (eexists; split; [reflexivity|]);
      repeat split; cbn; auto; try congruence. apply crel_grow; auto.
  - destruct (get (gs_prods s) p); injection H as <- <-; (eexists; split; [reflexivity|]); repeat split; cbn; auto; congruence.
  - destruct (get (gs_prods s) p); injection H as <- <-; (eexists; split; [reflexivity|]); repeat split; cbn; auto; congruence.
  - destruct (get (gs_prods s) p); injection H as <- <-; (eexists; split; [reflexivity|]); repeat split; cbn; auto; congruence.
  - destruct (get (gs_prods s) p); injection H as <- <-; (eexists; split; [reflexivity|]); repeat split; cbn; auto; congruence.
  - destruct (get (gs_prods s) p); injection H as <- <-; (eexists; split; [reflexivity|]); repeat split; cbn; auto; congruence.
  - destruct (gs_guards s) eqn:Q; injection H as <- <-; (eexists; split; [reflexivity|]); repeat split; cbn; auto; congruence.
  - destruct (get (gs_prods s) p); injection H as <- <-; (eexists; split; [reflexivity|]); repeat split; cbn; auto.
    apply Forall2_app; auto. constructor; auto. left; auto.
  - destruct (get (gs_cons s) c) as [g|] eqn:G.
    2:{ rewrite Triv by auto. injection H as <- <-. eexists. split; [reflexivity|]. repeat split; auto. }
    destruct (crel_get _ _ _ c R) as [[Q|(i & e & Q1 & Q2 & Q3)] _]; rewrite G in *.
    + rewrite <- Q. destruct (group_next _ _ _ _) as [a g']. injection H as <- <-.
      eexists. split; [reflexivity|]. destruct a; repeat split; cbn; auto; try congruence;
        apply Forall2_set; auto; left; auto.
    + rewrite Q2. injection Q1 as ->. rewrite <- (group_next_rel _ _ _ _ _ Q3).
      destruct (group_next _ _ _ _) as [a g']. injection H as <- <-.
      eexists. split; [reflexivity|]. destruct a; repeat split; cbn; auto; try congruence;
        apply Forall2_set; auto; left; auto.
  - destruct (get (gs_cons s) c) as [g|] eqn:G.
    2:{ rewrite Triv by auto. injection H as <- <-. eexists. split; [reflexivity|]. repeat split; auto. }
    destruct (crel_get _ _ _ c R) as [[Q|(i & e & Q1 & Q2 & Q3)] _]; rewrite G in *.
    + rewrite <- Q. destruct (group_read _ _ _ _ _) as [[a g']|]; injection H as <- <-; (eexists; split; [reflexivity|]);
        repeat split; cbn; auto; try congruence; apply Forall2_set; auto; left; auto.
    + rewrite Q2. injection Q1 as ->. rewrite <- (group_read_rel _ _ _ _ _ _ Q3).
      destruct (group_read _ _ _ _ _) as [[a g']|]; injection H as <- <-; (eexists; split; [reflexivity|]);
        repeat split; cbn; auto; try congruence; apply Forall2_set; auto; left; auto.
  - destruct (get (gs_cons s) c) as [g|] eqn:G.
    2:{ rewrite Triv by auto. injection H as <- <-. eexists. split; [reflexivity|]. repeat split; auto. }
    pose proof (crel_get _ _ _ c R) as [Q Q']. rewrite G in *. destruct (get (gs_cons t) c) as [g'|] eqn:G';
      [|destruct Q' as [_ Q']; specialize (Q' eq_refl); discriminate].
    injection H as <- <-. eexists. split; [reflexivity|]. repeat split; cbn; auto.
    apply Forall2_app; auto.
  - destruct (get (gs_cons s) c) as [g|] eqn:G.
    2:{ rewrite Triv by auto. injection H as <- <-. eexists. split; [reflexivity|]. repeat split; auto. }
    pose proof (crel_get _ _ _ c R) as [Q Q']. rewrite G in *. destruct (get (gs_cons t) c) as [g'|] eqn:G';
      [|destruct Q' as [_ Q']; specialize (Q' eq_refl); discriminate].
    injection H as <- <-. eexists. split; [reflexivity|]. repeat split; cbn; auto.
    apply Forall2_set; auto. left; auto.
Qed.

Lemma srel_run w ops s t : srel s t -> outputs (grun w s ops) = outputs (grun w t ops).
Proof.
  revert s t; induction ops; intros s t R; cbn; auto.
  destruct (gstep w s a) as [s1 x] eqn:E. destruct (srel_step _ _ _ _ _ _ R E) as (t1 & E' & R').
  rewrite E'. specialize (IHops _ _ R'). unfold outputs in *. destruct (grun w s1 ops), (grun w t1 ops). cbn in *. congruence.
Qed.

Lemma set_same_crel frames l c g g' : get l c = Some g -> crel frames (Some g) g' ->
  Forall2 (crel frames) l (set_nth c g' l).
Proof.
  intros G R. apply get_Some in G.
  destruct (set_nth_split _ g' _ _ G) as (a & b & E & E2 & _). rewrite E2, E.
  apply Forall2_app; [apply crel_refl|]. constructor; auto. apply crel_refl.
Qed.

(** A pending poll of either read changes nothing anybody can see, ever. *)
Lemma pending_invisible w s c o s1 x :
  o = GRead c \/ o = GNext c -> x = GGotAll APending \/ x = GGot APending ->
  gstep w s o = (s1, x) ->
  forall ops, outputs (grun w s1 ops) = outputs (grun w s ops).
Proof.
  intros Ho Hx H ops. symmetry. apply srel_run.
  unfold gstep in H. destruct Ho as [-> | ->].
  - destruct (get (gs_cons s) c) as [g|] eqn:G; [|injection H as _ <-; destruct Hx; discriminate].
    destruct (group_read _ _ _ _ _) as [[a g']|] eqn:E; [|injection H as _ <-; destruct Hx; discriminate].
    injection H as <- <-. destruct Hx as [Hx|Hx]; [|discriminate]. injection Hx as ->.
    repeat split; cbn; auto. eapply set_same_crel; eauto.
    unfold group_read in E. destruct (gc_active g) as [[f i]|] eqn:A.
    + destruct (nth_error (gs_heap s) f); [|discriminate]. unfold frame_read_all in E.
      destruct (fs_closed (sy_state f0)) as [[|]|]; [destruct (Nat.leb _ _)| |]; try discriminate.
      destruct (fsys_alive f0); try discriminate. injection E as <-. left. destruct g; cbn in *; subst; reflexivity.
    + unfold group_next in E. rewrite A in E. destruct (nth_error (gs_frames s) (gc_index g)) as [[f i]|] eqn:N.
      * destruct (nth_error (gs_heap s) f); [|discriminate]. unfold frame_read_all in E.
        destruct (fs_closed (sy_state f0)) as [[|]|]; [destruct (Nat.leb _ _)| |]; try discriminate.
        destruct (fsys_alive f0); try discriminate. injection E as <-. right.
        exists (gc_index g), (f, i). destruct g; cbn in *; subst; auto.
      * destruct (gs_closed s) as [[|]|]; try discriminate. destruct (gsys_alive s); try discriminate.
        injection E as <-. left. auto.
  - destruct (get (gs_cons s) c) as [g|] eqn:G; [|injection H as _ <-; destruct Hx; discriminate].
    destruct (group_next _ _ _ _) as [a g'] eqn:E. injection H as <- <-. destruct Hx as [Hx|Hx]; [discriminate|].
    injection Hx as ->. repeat split; cbn; auto. eapply set_same_crel; eauto. left.
    unfold group_next in E. destruct (gc_active g); [discriminate|]. destruct (nth_error _ _); [discriminate|].
    destruct (gs_closed s) as [[|]|]; try discriminate. destruct (gsys_alive s); try discriminate. congruence.
Qed.

(** Reading a finished group to its end. *)
Lemma reads_complete_aux w k s tr c g :
  ginv s tr -> get (gs_cons s) c = Some g -> gs_closed s = Some Finished ->
  (forall e, In e (skipn (length (nth c (obtained tr) [])) (appended tr)) -> frame_closed (gs_heap s) e = Some Finished) ->
  k = length (appended tr) - length (nth c (obtained tr) []) ->
  outputs (grun w s (repeat (GRead c) (S k))) =
  map (fun e => GGotAll (AOk (Some (payload (gs_heap s) e)))) (skipn (length (nth c (obtained tr) [])) (appended tr)) ++
  [GGotAll (AOk None)].
Proof.
  revert s tr g. induction k; intros s tr g I G C F Hk.
  - destruct (greader_at _ _ _ _ I G) as [L R]. pose proof (gi_frames _ _ I) as If.
    assert (Z : skipn (length (nth c (obtained tr) [])) (appended tr) = []) by (apply skipn_all2; lia).
    rewrite Z. unfold outputs. cbn [repeat grun gstep]. rewrite G.
    destruct (group_read_cases (gsys_alive s) _ _ (gs_closed s) _ _ R (gi_entries _ _ I)) as (a & g' & E & P).
    rewrite E. destruct R as (R1 & _ & _). rewrite If in *.
    assert (N : nth_error (appended tr) (length (nth c (obtained tr) [])) = None) by (apply nth_error_None; lia).
    destruct a as [[b|]|er| |].
    + destruct P as (_ & e & P & _). congruence.
    + reflexivity.
    + destruct P as (_ & [(_ & [P|(P & _)])|(e & fs & P & _)]); congruence.
    + destruct P as (_ & [(_ & P & _)|(e & fs & P & _)]); congruence.
    + contradiction.
  - destruct (greader_at _ _ _ _ I G) as [L R]. pose proof (gi_frames _ _ I) as If.
    destruct (group_read_cases (gsys_alive s) _ _ (gs_closed s) _ _ R (gi_entries _ _ I)) as (a & g' & E & P).
    set (o := nth c (obtained tr) []) in *.
    assert (Hl : length o < length (appended tr)) by lia.
    destruct (nth_error (appended tr) (length o)) as [e|] eqn:N; [|apply nth_error_None in N; lia].
    assert (Sk : skipn (length o) (appended tr) = e :: skipn (S (length o)) (appended tr)).
    { clear - N. revert N. generalize (length o) as n, (appended tr) as l. induction n; intros [|y l]; cbn; try discriminate.
      - intros [= ->]. auto. - intros H. rewrite (IHn _ H). auto. }
    assert (Fe : frame_closed (gs_heap s) e = Some Finished) by (apply F; rewrite Sk; left; auto).
    assert (St : gstep w s (GRead c) = (gwith_cons s (set_nth c (Some g') (gs_cons s)), GGotAll a)).
    { unfold gstep. rewrite G, E. auto. }
    unfold frame_closed in Fe. rewrite If in *.
    destruct a as [[b|]|er| |]; [| | | |contradiction].
    2:{ destruct P as (_ & P & _). lia. }
    2:{ destruct P as (_ & [(P & _)|(e' & fs & P1 & P2 & P3)]); [lia|]. replace e' with e in * by congruence.
        rewrite P2 in Fe. destruct P3 as [P3|(P3 & _)]; congruence. }
    2:{ destruct P as (_ & [(P & _)|(e' & fs & P1 & P2 & P3 & _)]); [lia|]. replace e' with e in * by congruence.
        rewrite P2 in Fe. congruence. }
    destruct P as (P1 & e' & P2 & P3 & P4). replace e' with e in * by congruence.
    pose proof (ginv_step w _ _ _ _ _ I St) as I'.
    assert (O' : nth c (obtained (tr ++ [(GRead c, GGotAll (AOk (Some b)))])) [] = o ++ [IWhole b]).
    { rewrite obtained_snoc. cbn [gwatch]. rewrite nth_set_eq by auto. auto. }
    assert (A' : appended (tr ++ [(GRead c, GGotAll (AOk (Some b)))]) = appended tr).
    { rewrite appended_snoc. cbn. apply app_nil_r. }
    specialize (IHk _ _ g' I').
    change (repeat (GRead c) (S (S k))) with (GRead c :: repeat (GRead c) (S k)).
    unfold outputs in *. cbn [grun]. rewrite St.
    destruct (grun w (gwith_cons s (set_nth c (Some g') (gs_cons s))) (repeat (GRead c) (S k))) as [s2 tr2].
    cbn [snd map]. rewrite A', O', app_length, Nat.add_1_r in IHk. cbn [snd] in IHk. rewrite IHk.
    + rewrite Sk. cbn [map app]. rewrite P4. reflexivity.
    + cbn. erewrite get_set_eq by eauto. auto.
    + exact C.
    + intros z Hz. apply F. rewrite Sk. right. exact Hz.
    + lia.
Qed.

Lemma reads_complete w ops c :
  let r := grun w gsys_new ops in
  let left := skipn (length (nth c (obtained (snd r)) [])) (appended (snd r)) in
  get (gs_cons (fst r)) c <> None ->
  gverdict (snd r) = Some Finished -> Forall (fun e => frame_closed (gs_heap (fst r)) e = Some Finished) left ->
  outputs (grun w (fst r) (repeat (GRead c) (S (length left)))) =
  map (fun e => GGotAll (AOk (Some (payload (gs_heap (fst r)) e)))) left ++ [GGotAll (AOk None)].
Proof.
  intros r left G V F. destruct (get (gs_cons (fst r)) c) as [g|] eqn:E; [|congruence].
  pose proof (ginv_run w ops) as I. fold r in I.
  apply (reads_complete_aux w (length left) (fst r) (snd r) c g I E).
  - rewrite (gi_closed _ _ I). auto.
  - intros e He. eapply Forall_forall in F; eauto.
  - unfold left. rewrite skipn_length. auto.
Qed.

(** * C22, C25 *)
Lemma group_next_result w ops c s' x :
  let r := grun w gsys_new ops in
  gstep w (fst r) (GNext c) = (s', x) -> x <> GBad ->
  let got := nth c (obtained (snd r)) [] in
  (exists e, nth_error (appended (snd r)) (length got) = Some e /\ x = GGot (AOk (Some e))) \/
  (length got = length (appended (snd r)) /\
   x = GGot (match gverdict (snd r) with
             | Some Finished => AOk None
             | Some (Failed e) => AErr e
             | None => if gsys_alive (fst r) then APending else AErr Cancel
             end)).
Proof.
  intros r H Hb got. pose proof (ginv_run w ops) as I. fold r in I.
  unfold gstep in H. destruct (get (gs_cons (fst r)) c) as [g|] eqn:G; [|injection H; congruence].
  destruct (greader_at _ _ _ _ I G) as [L R]. fold got in R.
  destruct (group_next_cases (gsys_alive (fst r)) _ _ (gs_closed (fst r)) _ _ R) as (a & g' & E & P). rewrite E in H.
  rewrite (gi_frames _ _ I), (gi_closed _ _ I) in *.
  destruct a as [[e|]|er| |]; [| | | |contradiction]; injection H as _ <-.
  - left. exists e. tauto.
  - right. destruct P as (_ & P & Q). rewrite Q. auto.
  - right. destruct P as (_ & P & [Q|(Q & A & ->)]); rewrite Q; auto. rewrite A. auto.
  - right. destruct P as (_ & P & Q & A). rewrite Q, A. auto.
Qed.

Lemma group_read_result w ops c s' x :
  let r := grun w gsys_new ops in
  gstep w (fst r) (GRead c) = (s', x) -> x <> GBad ->
  let got := nth c (obtained (snd r)) [] in
  (exists e fs, nth_error (appended (snd r)) (length got) = Some e /\ nth_error (gs_heap (fst r)) (fst e) = Some fs /\
   x = GGotAll (match fs_closed (sy_state fs) with
             | Some Finished => AOk (Some (payload (gs_heap (fst r)) e))
             | Some (Failed e) => AErr e
             | None => if fsys_alive fs then APending else AErr Cancel
             end)) \/
  (length got = length (appended (snd r)) /\
   x = GGotAll (match gverdict (snd r) with
             | Some Finished => AOk None
             | Some (Failed e) => AErr e
             | None => if gsys_alive (fst r) then APending else AErr Cancel
             end)).
Proof.
  intros r H Hb got. pose proof (ginv_run w ops) as I. fold r in I.
  unfold gstep in H. destruct (get (gs_cons (fst r)) c) as [g|] eqn:G; [|injection H; congruence].
  destruct (greader_at _ _ _ _ I G) as [L R]. fold got in R.
  destruct (group_read_cases (gsys_alive (fst r)) _ _ (gs_closed (fst r)) _ _ R (gi_entries _ _ I)) as (a & g' & E & P). rewrite E in H.
  rewrite (gi_frames _ _ I), (gi_closed _ _ I) in *.
  destruct a as [[b|]|er| |]; [| | | |contradiction]; injection H as _ <-.
  - left. destruct P as (_ & e & P1 & P2 & ->). unfold frame_closed in P2.
    destruct (nth_error (gs_heap (fst r)) (fst e)) as [fs|] eqn:F; [|discriminate]. exists e, fs. rewrite P2. auto.
  - right. destruct P as (_ & P & Q). rewrite Q. auto.
  - destruct P as (_ & [(P & [Q|(Q & A & ->)])|(e & fs & P1 & P2 & [Q|(Q & A & ->)])]).
    + right. rewrite Q. auto.
    + right. rewrite Q, A. auto.
    + left. exists e, fs. rewrite Q. auto.
    + left. exists e, fs. rewrite Q, A. auto.
  - destruct P as (_ & [(P & Q & A)|(e & fs & P1 & P2 & Q & A)]).
    + right. rewrite Q, A. auto.
    + left. exists e, fs. rewrite Q, A. auto.
Qed.

Lemma append_result w ops p f c s' x :
  let r := grun w gsys_new ops in
  gstep w (fst r) (GAppend p f c) = (s', x) -> x <> GBad ->
  match gverdict (snd r) with
  | None => exists i, x = GAppended i
  | Some _ => x = GPanic /\ gs_frames s' = gs_frames (fst r) /\ gs_closed s' = gs_closed (fst r) /\
      gs_cons s' = gs_cons (fst r) /\ gs_prods s' = gs_prods (fst r) /\ gs_guards s' = gs_guards (fst r) /\
      map sy_state (gs_heap s') = map sy_state (gs_heap (fst r))
  end.
Proof.
  intros r H Hb. pose proof (ginv_run w ops) as I. fold r in I. rewrite <- (gi_closed _ _ I).
  unfold gstep in H. destruct (get (gs_prods (fst r)) p); [|injection H; congruence].
  destruct (nth_error (gs_heap (fst r)) f) as [fs|] eqn:E; [|injection H; congruence].
  destruct (get (sy_cons fs) c) as [i|]; [|injection H; congruence]. cbn in H.
  destruct (gs_closed (fst r)) eqn:C; injection H as <- <-; [|eauto].
  cbn. repeat split; auto; try congruence.
  destruct (set_nth_split _ (with_cons fs (set_nth c None (sy_cons fs))) _ _ E) as (a & b & Ea & Eb & _).
  etransitivity; [exact (f_equal (map sy_state) Eb)|].
  etransitivity; [|exact (f_equal (map sy_state) (eq_sym Ea))]. rewrite !map_app. reflexivity.
Qed.

Lemma group_released w ops c s' x :
  let r := grun w gsys_new ops in
  gsys_alive (fst r) = false -> gstep w (fst r) (GNext c) = (s', x) -> x <> GGot APending.
Proof.
  intros r A H E. destruct (group_next_result w ops c s' x H) as [(e & _ & K)|[_ K]]; [congruence|congruence|].
  fold r in K. rewrite A in K. destruct (gverdict (snd r)) as [[|]|]; congruence.
Qed.
