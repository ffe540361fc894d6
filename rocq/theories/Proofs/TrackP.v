From Coq Require Import NArith ZArith List Lia Bool.
From Coq Require Import ZifyBool ZifyNat ZifyN.
From Verif.Model Require Import Base ErrorCode Stream Frame FrameSys TrackSys.
From Verif.Spec Require Import TrackSpec.
From Verif.Proofs Require Import BaseP TableP FrameP.
Import ListNotations.
Open Scope N_scope.

Fixpoint last_opt {A} (l : list A) : option A :=
  match l with [] => None | [x] => Some x | _ :: l => last_opt l end.
Lemma last_opt_snoc {A} (l : list A) x : last_opt (l ++ [x]) = Some x.
Proof. induction l; auto. cbn. destruct (l ++ [x]) eqn:E; auto. destruct l; discriminate. Qed.
Lemma last_opt_In {A} (l : list A) x : last_opt l = Some x -> In x l.
Proof.
  induction l as [|a [|b l]]; cbn; try discriminate.
  - intros [= ->]. auto. - intros H. right. apply IHl. exact H.
Qed.
Lemma last_opt_None {A} (l : list A) : last_opt l = None -> l = [].
Proof. induction l as [|a [|b l]]; auto; cbn; try discriminate. intros H. specialize (IHl H). discriminate. Qed.

Lemma increasing_snoc l g : increasing l -> newer_than_all g l -> increasing (l ++ [g]).
Proof.
  induction l; cbn; intros H N; auto. destruct H as [H1 H2]. inversion N; subst. split; auto.
  apply Forall_app. auto.
Qed.
Lemma increasing_last l g : increasing l -> last_opt l = Some g -> newest g l.
Proof.
  intros H E. split; [apply last_opt_In; auto|]. revert E. induction l as [|a [|b l]].
  - discriminate.
  - cbn. intros [= ->]. repeat constructor. lia.
  - intros E. destruct H as [H1 H2]. specialize (IHl H2 E). constructor; auto.
    change (last_opt (b :: l) = Some g) in E. apply last_opt_In in E.
    eapply Forall_forall in H1; eauto. lia.
Qed.
Lemma newer_last l g h : increasing l -> last_opt l = Some h -> g_seq h < g_seq g -> newer_than_all g l.
Proof.
  intros H E L. destruct (increasing_last _ _ H E) as [_ N]. eapply Forall_impl; [|exact N]. cbn; lia.
Qed.

Definition rd_ok (acc : list group) (x : option (option N)) (o : list group) : Prop :=
  increasing o /\ incl o acc /\ forall prev, x = Some prev -> prev = option_map g_seq (last_opt o).

Record tinv (s : tsys) (tr : list tevent) : Prop := {
  ti_closed : ts_closed s = tverdict tr;
  ti_inc : increasing (accepted tr);
  ti_latest : ts_latest s = last_opt (accepted tr);
  ti_readers : Forall2 (rd_ok (accepted tr)) (ts_cons s) (groups tr) }.

Lemma accepted_snoc tr e : accepted (tr ++ [e]) = accepted tr ++ accept_of e.
Proof. unfold accepted. rewrite flat_map_app. cbn. rewrite app_nil_r. auto. Qed.
Lemma groups_snoc tr e : groups (tr ++ [e]) = twatch (groups tr) e.
Proof. unfold groups. rewrite fold_left_app. auto. Qed.
Lemma tverdict_snoc tr e : tverdict (tr ++ [e]) = tclosing (tverdict tr) e.
Proof. unfold tverdict. rewrite fold_left_app. auto. Qed.

Lemma insert_cases g acc closed : increasing acc ->
  track_insert g (last_opt acc) closed =
  match closed with
  | Some _ => Panic
  | None => if forallb (fun h => g_seq h <? g_seq g) acc then Val (true, Some g) else Val (false, last_opt acc)
  end.
Proof.
  intros H. unfold track_insert. destruct closed; auto. destruct (last_opt acc) as [l|] eqn:E.
  - destruct (increasing_last _ _ H E) as [I N].
    destruct (N.ltb_spec (g_seq l) (g_seq g)).
    + rewrite (proj2 (forallb_forall _ acc)); auto. intros h Hh. eapply Forall_forall in N; eauto. cbn in N. lia.
    + destruct (forallb (fun h => g_seq h <? g_seq g) acc) eqn:F; auto. rewrite forallb_forall in F.
      specialize (F _ I). cbn in F. lia.
  - apply last_opt_None in E. subst. auto.
Qed.

Lemma forallb_newer g acc : forallb (fun h => g_seq h <? g_seq g) acc = true <-> newer_than_all g acc.
Proof. unfold newer_than_all. rewrite forallb_forall, Forall_forall. split; intros H h Hh; specialize (H h Hh); cbn in *; lia. Qed.

Lemma tinv_accept s tr s' e g :
  tinv s tr -> newer_than_all g (accepted tr) -> accept_of e = [g] -> ts_latest s' = Some g ->
  ts_closed s' = ts_closed s -> tclosing (tverdict tr) e = tverdict tr ->
  ts_cons s' = ts_cons s -> twatch (groups tr) e = groups tr -> tinv s' (tr ++ [e]).
Proof.
  intros [I1 I2 I3 I4] N A L C V K W.
  constructor; rewrite ?accepted_snoc, ?groups_snoc, ?tverdict_snoc, ?A, ?V, ?W, ?K; try congruence.
  - apply increasing_snoc; auto.
  - rewrite last_opt_snoc. auto.
  - eapply Forall2_impl; [|exact I4]. intros a b (R1 & R2 & R3). split; auto. split; auto.
    intros z Hz. apply in_or_app. auto.
Qed.
Lemma tinv_quiet s tr s' e :
  tinv s tr -> accept_of e = [] -> ts_latest s' = ts_latest s ->
  ts_closed s' = tclosing (ts_closed s) e ->
  ts_cons s' = ts_cons s -> twatch (groups tr) e = groups tr -> tinv s' (tr ++ [e]).
Proof.
  intros [I1 I2 I3 I4] A L C K W.
  constructor; rewrite ?accepted_snoc, ?groups_snoc, ?tverdict_snoc, ?A, ?W, ?K, ?app_nil_r; auto; congruence.
Qed.

Lemma rd_at s tr c prev : tinv s tr -> get (ts_cons s) c = Some prev ->
  (c < length (groups tr))%nat /\ rd_ok (accepted tr) (Some prev) (nth c (groups tr) []).
Proof.
  intros [_ _ _ H] G. apply get_Some in G.
  assert (L : (c < length (groups tr))%nat) by (rewrite <- (Forall2_len _ _ _ H); apply nth_error_Some; congruence).
  split; auto. exact (Forall2_nth_error _ _ _ _ _ _ H G (nth_error_nth' (A:=list group) _ [] L)).
Qed.

(** The result of polling [next_group], in terms of the history. *)
Lemma track_next_cases alive acc closed prev o :
  increasing acc -> rd_ok acc (Some prev) o ->
  exists a p', track_next alive (last_opt acc) closed prev = Val (a, p') /\
  match closed with
  | Some Finished => a = AOk None /\ p' = prev
  | Some (Failed e) => a = AErr e /\ p' = prev
  | None =>
      (exists g, newest g acc /\ newer_than_all g o /\ a = AOk (Some g) /\ p' = Some (g_seq g) /\ last_opt acc = Some g) \/
      ((forall g, In g acc -> ~ newer_than_all g o) /\ p' = prev /\
       a = if alive then APending else AErr Cancel)
  end.
Proof.
  intros H (R1 & R2 & R3). specialize (R3 _ eq_refl). unfold track_next.
  destruct (opt_gt (option_map g_seq (last_opt acc)) prev) eqn:O; cbn [orb].
  - destruct closed as [[|e]|].
    + eexists _, _. split; [reflexivity|]. auto.
    + eexists _, _. split; [reflexivity|]. auto.
    + destruct (last_opt acc) as [g|] eqn:E; [|discriminate].
      eexists _, _. split; [reflexivity|]. left. exists g. destruct (increasing_last _ _ H E). repeat split; auto.
      cbn in O. subst prev. destruct (last_opt o) as [h|] eqn:F.
      * eapply newer_last; eauto. cbn in O. lia.
      * apply last_opt_None in F. subst. constructor.
  - destruct closed as [[|e]|].
    + eexists _, _. split; [reflexivity|]. auto.
    + eexists _, _. split; [reflexivity|]. auto.
    + eexists _, _. split; [reflexivity|]. right. split; [|auto]. intros g Hg N.
      destruct (last_opt acc) as [l|] eqn:E; [|apply last_opt_None in E; subst; destruct Hg].
      destruct (increasing_last _ _ H E) as [_ Nl]. eapply Forall_forall in Nl; eauto. cbn in Nl.
      subst prev. cbn in O. destruct (last_opt o) as [h|] eqn:F; cbn in O; [|discriminate].
      apply last_opt_In in F. eapply Forall_forall in N; eauto. cbn in N. lia.
Qed.

Lemma tinv_step m s tr o s' x : tinv s tr -> tstep m s o = (s', x) -> tinv s' (tr ++ [(o, x)]).
Proof.
  intros I H. unfold tstep in H. destruct o as [p g|p|p id|p|p e|p|p|p| |p|c|c|c|c].
  - destruct (idle s p); [|injection H as <- <-; apply tinv_quiet with (s := s); auto].
    rewrite (ti_latest _ _ I), insert_cases in H by apply I.
    destruct (ts_closed s) eqn:C; [injection H as <- <-; apply tinv_quiet with (s := s); auto|].
    destruct (forallb _ _) eqn:F; injection H as <- <-.
    + apply forallb_newer in F. apply tinv_accept with (s := s) (g := g); auto.
    + apply tinv_quiet with (s := s); auto. cbn. symmetry. apply I.
  - destruct (idle s p); [|injection H as <- <-; apply tinv_quiet with (s := s); auto].
    destruct (append_seq _ _); injection H as <- <-; apply tinv_quiet with (s := s); auto.
  - destruct (get (ts_prods s) p) as [[|n]|]; [injection H as <- <-; apply tinv_quiet with (s := s); auto| |injection H as <- <-; apply tinv_quiet with (s := s); auto].
    cbn in H. rewrite (ti_latest _ _ I), insert_cases in H by apply I.
    destruct (ts_closed s) eqn:C; [injection H as <- <-; apply tinv_quiet with (s := s); auto|].
    destruct (forallb _ _) eqn:F; injection H as <- <-.
    + apply forallb_newer in F. apply tinv_accept with (s := s) (g := Group n id); auto.
    + apply tinv_quiet with (s := s); auto.
  - destruct (idle s p); injection H as <- <-; apply tinv_quiet with (s := s); auto.
  - destruct (idle s p); injection H as <- <-; apply tinv_quiet with (s := s); auto.
  - destruct (idle s p); injection H as <- <-; apply tinv_quiet with (s := s); auto.
  - destruct (idle s p); injection H as <- <-; apply tinv_quiet with (s := s); auto.
  - destruct (idle s p); injection H as <- <-; apply tinv_quiet with (s := s); auto.
  - destruct (ts_guards s); injection H as <- <-; apply tinv_quiet with (s := s); auto.
  - destruct (idle s p); injection H as <- <-; [|apply tinv_quiet with (s := s); auto].
    destruct I as [I1 I2 I3 I4]. constructor; rewrite ?accepted_snoc, ?groups_snoc, ?tverdict_snoc; cbn; rewrite ?app_nil_r; auto.
    apply Forall2_app; auto. constructor; auto. split; [exact Logic.I|]. split; [intros z []|]. intros prev [= <-]. auto.
  - destruct (get (ts_cons s) c) as [prev|] eqn:G; [|injection H as <- <-; apply tinv_quiet with (s := s); auto].
    destruct (rd_at _ _ _ _ I G) as [L R].
    destruct (track_next_cases (tsys_alive s) _ (ts_closed s) _ _ (ti_inc _ _ I) R) as (a & p' & E & P).
    rewrite (ti_latest _ _ I), E in H.
    assert (Quiet : p' = prev -> (forall z, a <> AOk (Some z)) -> tinv s' (tr ++ [(TNext c, x)])).
    { intros -> Ha. injection H as <- <-.
      assert (S1 : set_nth c (Some prev) (ts_cons s) = ts_cons s) by (apply set_nth_same; apply get_Some; auto).
      apply tinv_quiet with (s := s); auto. cbn. destruct a as [[|]| | |]; auto. exfalso; eapply Ha; eauto. }
    destruct (ts_closed s) as [[|e]|] eqn:C.
    + destruct P as [-> ->]. apply Quiet; congruence.
    + destruct P as [-> ->]. apply Quiet; congruence.
    + destruct P as [(g & P1 & P2 & -> & -> & P3)|(P1 & -> & Pa)].
      * injection H as <- <-. destruct I as [I1 I2 I3 I4].
        constructor; rewrite ?accepted_snoc, ?groups_snoc, ?tverdict_snoc; cbn [accept_of twatch tclosing twith_cons ts_cons ts_closed ts_latest]; rewrite ?app_nil_r; auto.
        -- apply Forall2_set; auto. destruct R as (R1 & R2 & R3). split; [apply increasing_snoc; auto|]. split.
           ++ intros z Hz. apply in_app_or in Hz as [Hz|[<-|[]]]; auto. apply P1.
           ++ intros prev' [= <-]. rewrite last_opt_snoc. auto.
      * apply Quiet; auto. intros z. destruct (tsys_alive s); subst; congruence.
  - destruct (get (ts_cons s) c); injection H as <- <-; apply tinv_quiet with (s := s); auto.
  - destruct (get (ts_cons s) c) as [prev|] eqn:G; [|injection H as <- <-; apply tinv_quiet with (s := s); auto].
    destruct (rd_at _ _ _ _ I G) as [L R]. injection H as <- <-. destruct I as [I1 I2 I3 I4].
    constructor; rewrite ?accepted_snoc, ?groups_snoc, ?tverdict_snoc; cbn; rewrite ?app_nil_r; auto.
    apply Forall2_app; auto.
  - destruct (get (ts_cons s) c) as [prev|] eqn:G; [|injection H as <- <-; apply tinv_quiet with (s := s); auto].
    destruct (rd_at _ _ _ _ I G) as [L R]. injection H as <- <-. destruct I as [I1 I2 I3 I4].
    constructor; rewrite ?accepted_snoc, ?groups_snoc, ?tverdict_snoc; cbn; rewrite ?app_nil_r; auto.
    eapply Forall2_set_l; eauto; [apply (nth_error_nth' (A:=list group) _ [] L)|].
    destruct R as (R1 & R2 & _). split; [exact R1|]. split; [exact R2|]. intros ? [=].
Qed.

Lemma trun_app m s a b :
  trun m s (a ++ b) =
  (fst (trun m (fst (trun m s a)) b), snd (trun m s a) ++ snd (trun m (fst (trun m s a)) b)).
Proof.
  revert s; induction a; intros; cbn.
  - destruct (trun m s b); auto.
  - destruct (tstep m s a) as [s1 x]. rewrite IHa. destruct (trun m s1 a0); cbn. auto.
Qed.
Lemma trun_snoc m s ops o :
  trun m s (ops ++ [o]) =
  let (s1, tr) := trun m s ops in let (s2, x) := tstep m s1 o in (s2, tr ++ [(o, x)]).
Proof. rewrite trun_app. cbn. destruct (trun m s ops) as [s1 tr]. cbn. destruct (tstep m s1 o). auto. Qed.
Lemma tinv_run m ops : tinv (fst (trun m tsys_new ops)) (snd (trun m tsys_new ops)).
Proof.
  induction ops using rev_ind.
  - constructor; cbn; auto.
  - rewrite trun_snoc. destruct (trun m tsys_new ops) as [s tr]. destruct (tstep m s x) eqn:E.
    cbn [fst snd] in *. eapply tinv_step; eauto.
Qed.

(** * Top-level *)
Lemma readers_forward m ops c :
  let tr := snd (trun m tsys_new ops) in
  increasing (nth c (groups tr) []) /\ incl (nth c (groups tr) []) (accepted tr).
Proof.
  intros tr. pose proof (tinv_run m ops) as [_ _ _ H]. fold tr in H.
  destruct (Nat.lt_ge_cases c (length (groups tr))) as [L|L].
  - destruct (nth_error (ts_cons (fst (trun m tsys_new ops))) c) as [x|] eqn:E.
    + pose proof (Forall2_nth_error _ _ _ _ _ _ H E (nth_error_nth' (A:=list group) _ [] L)) as (P1 & P2 & _). auto.
    + apply nth_error_None in E. rewrite (Forall2_len _ _ _ H) in E. lia.
  - rewrite nth_overflow by auto. split; [exact I|]. intros z [].
Qed.

Lemma insert_result m ops p g s' x :
  let r := trun m tsys_new ops in
  tstep m (fst r) (TInsert p g) = (s', x) -> x <> TBad ->
  match tverdict (snd r) with
  | Some _ => x = TPanics /\ s' = fst r
  | None =>
      (newer_than_all g (accepted (snd r)) /\ x = TInserted true) \/
      (~ newer_than_all g (accepted (snd r)) /\ x = TInserted false /\ s' = fst r)
  end.
Proof.
  intros r H Hb. pose proof (tinv_run m ops) as I. fold r in I.
  unfold tstep in H. destruct (idle (fst r) p); [|injection H; congruence].
  rewrite (ti_latest _ _ I), insert_cases in H by apply I. rewrite <- (ti_closed _ _ I).
  destruct (ts_closed (fst r)); [injection H as <- <-; auto|].
  destruct (forallb _ _) eqn:F; injection H as <- <-.
  - left. apply forallb_newer in F. auto.
  - right. split; [|split; auto].
    + intros N. apply forallb_newer in N. congruence.
    + rewrite <- (ti_latest _ _ I). unfold twith_latest. destruct (fst r); auto.
Qed.

Lemma next_result m ops c s' x :
  let r := trun m tsys_new ops in
  tstep m (fst r) (TNext c) = (s', x) -> x <> TBad ->
  let got := nth c (groups (snd r)) [] in
  match tverdict (snd r) with
  | Some Finished => x = TGot (AOk None)
  | Some (Failed e) => x = TGot (AErr e)
  | None =>
      (exists g, newest g (accepted (snd r)) /\ newer_than_all g got /\ x = TGot (AOk (Some g))) \/
      ((forall g, In g (accepted (snd r)) -> ~ newer_than_all g got) /\
       x = TGot (if tsys_alive (fst r) then APending else AErr Cancel))
  end.
Proof.
  intros r H Hb got. pose proof (tinv_run m ops) as I. fold r in I.
  unfold tstep in H. destruct (get (ts_cons (fst r)) c) as [prev|] eqn:G; [|injection H; congruence].
  destruct (rd_at _ _ _ _ I G) as [L R]. fold got in R.
  destruct (track_next_cases (tsys_alive (fst r)) _ (ts_closed (fst r)) _ _ (ti_inc _ _ I) R) as (a & p' & E & P).
  rewrite (ti_latest _ _ I), E in H. rewrite <- (ti_closed _ _ I). injection H as _ <-.
  destruct (ts_closed (fst r)) as [[|e]|].
  - destruct P as [-> _]; auto.
  - destruct P as [-> _]; auto.
  - destruct P as [(g & P1 & P2 & -> & _)|(P1 & _ & ->)]; [left; eauto|right; auto].
Qed.

Lemma closed_result m ops c s' x :
  let r := trun m tsys_new ops in
  tstep m (fst r) (TClosed c) = (s', x) -> x <> TBad ->
  s' = fst r /\
  x = TEnd (match tverdict (snd r) with
            | Some o => AOk o
            | None => if tsys_alive (fst r) then APending else AErr Cancel
            end).
Proof.
  intros r H Hb. pose proof (tinv_run m ops) as I. fold r in I.
  unfold tstep in H. destruct (get (ts_cons (fst r)) c); [|injection H; congruence]. injection H as <- <-.
  rewrite (ti_closed _ _ I). auto.
Qed.

(** append_group when nothing happens between its two halves. *)
Definition next_seq (acc : list group) : N := match last_opt acc with Some g => g_seq g + 1 | None => 0 end.
Lemma append_alone m ops p id :
  let r := trun m tsys_new ops in
  tverdict (snd r) = None -> idle (fst r) p = true ->
  Forall (fun g => g_seq g + 1 < 2 ^ 64) (accepted (snd r)) ->
  exists n, map snd (snd (trun m (fst r) [TAppend1 p; TAppend2 p id])) = [TUnit; TAppended (Group n id)] /\
    ((accepted (snd r) = [] /\ n = 0) \/ exists g, newest g (accepted (snd r)) /\ n = g_seq g + 1).
Proof.
  intros r V Id F. pose proof (tinv_run m ops) as I. fold r in I.
  exists (next_seq (accepted (snd r))).
  assert (A : append_seq m (ts_latest (fst r)) = Val (next_seq (accepted (snd r)))).
  { rewrite (ti_latest _ _ I). unfold append_seq, next_seq. destruct (last_opt _) as [g|] eqn:E; auto.
    apply last_opt_In in E. eapply Forall_forall in F; eauto. cbn beta in F.
    destruct (N.ltb_spec (g_seq g + 1) (2 ^ 64)); auto. lia. }
  assert (G : exists z, get (ts_prods (fst r)) p = Some z).
  { unfold idle in Id. destruct (get (ts_prods (fst r)) p); eauto. discriminate. }
  destruct G as [z G].
  assert (N : newer_than_all (Group (next_seq (accepted (snd r))) id) (accepted (snd r))).
  { unfold next_seq. destruct (last_opt _) as [g|] eqn:E.
    - apply newer_last with (h := g); auto. apply I. cbn. lia.
    - apply last_opt_None in E. rewrite E. constructor. }
  split.
  - cbn [trun tstep]. rewrite Id, A. cbn [ts_prods twith_prods ts_latest ts_closed].
    erewrite get_set_eq by eauto. rewrite (ti_latest _ _ I), insert_cases by apply I.
    rewrite (ti_closed _ _ I), V. apply forallb_newer in N. rewrite N. reflexivity.
  - unfold next_seq. destruct (last_opt _) as [g|] eqn:E; [right|left].
    + exists g. split; auto. apply increasing_last; auto. apply I.
    + apply last_opt_None in E. auto.
Qed.

(** Second half of append_group in general. *)
Lemma append_second m ops p id n s' x :
  let r := trun m tsys_new ops in
  get (ts_prods (fst r)) p = Some (Appending n) ->
  tstep m (fst r) (TAppend2 p id) = (s', x) ->
  (x = TAppended (Group n id) /\ tverdict (snd r) = None /\ newer_than_all (Group n id) (accepted (snd r))) \/
  (x = TPanics /\ (tverdict (snd r) <> None \/ ~ newer_than_all (Group n id) (accepted (snd r)))).
Proof.
  intros r G H. pose proof (tinv_run m ops) as I. fold r in I.
  unfold tstep in H. rewrite G in H. cbn in H. rewrite (ti_latest _ _ I), insert_cases in H by apply I.
  rewrite <- (ti_closed _ _ I). destruct (ts_closed (fst r)).
  - injection H as <- <-. right. split; auto. left. congruence.
  - destruct (forallb _ _) eqn:F; injection H as <- <-.
    + left. apply forallb_newer in F. auto.
    + right. split; auto. right. intros N. apply forallb_newer in N. congruence.
Qed.

Lemma obtained_only_open m ops c s' x :
  let r := trun m tsys_new ops in
  tstep m (fst r) (TNext c) = (s', x) -> (exists g, x = TGot (AOk (Some g))) -> tverdict (snd r) = None.
Proof.
  intros r H [g ->]. pose proof (next_result m ops c s' _ H ltac:(discriminate)) as K. fold r in K. cbv zeta in K.
  destruct (tverdict (snd r)) as [[|]|]; auto; discriminate.
Qed.
Lemma track_released m ops c s' x :
  let r := trun m tsys_new ops in
  tsys_alive (fst r) = false -> tstep m (fst r) (TNext c) = (s', x) -> x <> TGot APending.
Proof.
  intros r A H ->. pose proof (next_result m ops c s' _ H ltac:(discriminate)) as K. fold r in K. cbv zeta in K.
  destruct (tverdict (snd r)) as [[|]|]; try discriminate.
  rewrite A in K. destruct K as [(g & _ & _ & K)|[_ K]]; discriminate.
Qed.
Lemma insert_closed m ops p g s' x :
  let r := trun m tsys_new ops in
  tverdict (snd r) <> None -> tstep m (fst r) (TInsert p g) = (s', x) -> x <> TBad -> x = TPanics /\ s' = fst r.
Proof.
  intros r V H Hb. pose proof (insert_result m ops p g s' x H Hb) as K. fold r in K. cbv zeta in K.
  destruct (tverdict (snd r)); auto. congruence.
Qed.
Lemma insert_open m ops p g s' x :
  let r := trun m tsys_new ops in
  tverdict (snd r) = None -> tstep m (fst r) (TInsert p g) = (s', x) -> x <> TPanics.
Proof.
  intros r V H ->. pose proof (insert_result m ops p g s' _ H ltac:(discriminate)) as K. fold r in K. cbv zeta in K.
  rewrite V in K. destruct K as [[_ K]|[_ [K _]]]; discriminate.
Qed.
