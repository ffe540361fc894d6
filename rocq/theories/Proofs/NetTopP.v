From Coq Require Import NArith ZArith Arith List Lia Bool.
From Coq Require Import Init.Byte Strings.Byte.
From Verif.Model Require Import Base Coding Message ErrorCode Stream Frame FrameSys TrackSys Publisher Transfer Net.
From Verif.Spec Require Import TrackSpec TransferSpec NetSpec.
From Verif.Proofs Require Import BaseP TableP TrackP TransferP TransferTop RelayP NetP NetSysP NetStepP.
Import ListNotations.
Open Scope nat_scope.

Lemma run_inv w m ops : (62 <= w)%N -> Forall modest ops ->
  exists H, ninv w (fst (nrun m w net_new ops)) H /\ forall i, H i = history i (snd (nrun m w net_new ops)).
Proof. intros W M. exists (hist (snd (nrun m w net_new ops))). split; [apply ninv_run; assumption|intros; apply hist_history]. Qed.

Lemma tinv_at w s H i : ninv w s H -> H i = [] \/ exists t, nth_error (nt_tracks s) i = Some t /\ tinv t (H i).
Proof.
  intros K. destruct (nth_error (nt_tracks s) i) as [t|] eqn:E.
  - right. exists t. split; [reflexivity|]. exact (tk_inv _ _ (ni_tracks _ _ _ K) i t E).
  - left. apply (tk_none _ _ (ni_tracks _ _ _ K)). apply nth_error_None. exact E.
Qed.

Lemma reader_ok acc cs gs c : Forall2 (rd_ok acc) cs gs -> increasing (nth c gs []) /\ incl (nth c gs []) acc.
Proof.
  intros F. revert c. induction F as [|y o ys os Ho _ IH]; intros [|c]; cbn; auto; try (split; [exact I|intros ? []]).
  destruct Ho as (A & B & _). auto.
Qed.

Lemma given_ok w s H i c : ninv w s H ->
  increasing (accepted (H i)) /\ increasing (nth c (groups (H i)) []) /\ incl (nth c (groups (H i)) []) (accepted (H i)).
Proof.
  intros K. destruct (tinv_at w s H i K) as [E|(t & _ & Ti)].
  - rewrite E. cbn. destruct c; cbn; repeat split; intros ? [].
  - split; [exact (ti_inc _ _ Ti)|]. exact (reader_ok _ _ _ c (ti_readers _ _ Ti)).
Qed.

Lemma in_order m w ops i c : (62 <= w)%N -> Forall modest ops ->
  let tr := snd (nrun m w net_new ops) in
  increasing (taken i tr) /\ increasing (given i c tr) /\ incl (given i c tr) (taken i tr).
Proof.
  intros W M tr. destruct (run_inv w m ops W M) as (H & K & EH). unfold taken, given. rewrite <- EH. exact (given_ok w _ H i c K).
Qed.

Lemma taken_copies m w ops i g : (62 <= w)%N -> Forall modest ops -> 1 <= i ->
  let r := nrun m w net_new ops in
  In g (taken i (snd r)) ->
  exists g0 h0 h, In g0 (taken 0 (snd r)) /\ g_seq g0 = g_seq g /\ written (fst r) 0 (g_id g0) = Some h0 /\
    written (fst r) i (g_id g) = Some h /\ copy_of h0 h.
Proof.
  intros W M Li r. destruct (run_inv w m ops W M) as (H & K & EH). unfold taken, written. subst r. rewrite <- !EH. intros Ig.
  destruct (ni_cont _ _ _ K) as [C1 C2 C3 C4].
  assert (Lid : g_id g < length (nth i (nt_groups (fst (nrun m w net_new ops))) [])).
  { apply (in_map g_id) in Ig. rewrite (C2 _ Li) in Ig. apply in_seq in Ig. lia. }
  destruct (nth_error (nth i (nt_groups (fst (nrun m w net_new ops))) []) (g_id g)) as [h|] eqn:E; [|apply nth_error_None in E; lia].
  destruct (C4 i g h Li Ig E) as (g0 & h0 & I0 & Q0 & E0 & Cp). exists g0, h0, h. auto.
Qed.

(** * At rest *)

Lemma increasing_bound l g : increasing l -> In g l -> exists z, last_opt l = Some z /\ In z l /\ (g_seq g <= g_seq z)%N.
Proof.
  intros Inc Ig. destruct (last_opt l) as [z|] eqn:E.
  - exists z. destruct (increasing_last _ _ Inc E) as [Iz N]. split; [reflexivity|]. split; [exact Iz|]. rewrite Forall_forall in N. exact (N g Ig).
  - destruct l; [contradiction|]. exfalso. clear -E. revert g0 E. induction l as [|y l IH]; intros x E; [discriminate|]. exact (IH y E).
Qed.

Lemma next_inv m t h c t' x : tinv t h -> tstep m t (TNext c) = (t', x) -> x <> TBad ->
  let got := nth c (groups h) [] in
  match tverdict h with
  | Some Finished => x = TGot (AOk None)
  | Some (Failed e) => x = TGot (AErr e)
  | None =>
      (exists g, newest g (accepted h) /\ newer_than_all g got /\ x = TGot (AOk (Some g))) \/
      ((forall g, In g (accepted h) -> ~ newer_than_all g got) /\ x = TGot (if tsys_alive t then APending else AErr Cancel))
  end.
Proof.
  intros I St Nb got. unfold tstep in St. destruct (get (ts_cons t) c) as [prev|] eqn:G; [|injection St; congruence].
  destruct (rd_at _ _ _ _ I G) as [L R]. fold got in R.
  destruct (track_next_cases (tsys_alive t) _ (ts_closed t) _ _ (ti_inc _ _ I) R) as (a & p' & E & P).
  rewrite (ti_latest _ _ I), E in St. rewrite <- (ti_closed _ _ I). injection St as _ <-.
  destruct (ts_closed t) as [[|e]|].
  - destruct P as [-> _]; auto.
  - destruct P as [-> _]; auto.
  - destruct P as [(g & P1 & P2 & -> & _)|(P1 & _ & ->)]; [left; eauto|right; auto].
Qed.

(** A polled reader that has to wait has had the newest group. *)
Lemma had_newest acc got q : increasing acc -> increasing got -> incl got acc -> (forall g, In g acc -> ~ newer_than_all g got) ->
  newest_is acc q -> newest_is got q.
Proof.
  intros I1 I2 Inc N. destruct q as [n|]; cbn.
  - intros (g & (Ig & Fg) & Eq). destruct (last_opt got) as [z|] eqn:E.
    + destruct (increasing_last _ _ I2 E) as [Iz Fz]. exists z. split; [split; assumption|].
      rewrite Forall_forall in Fg. pose proof (Fg z (Inc z Iz)) as Lz.
      destruct (N.lt_ge_cases (g_seq z) (g_seq g)) as [Lt|Ge]; [|lia]. exfalso. apply (N g Ig).
      apply Forall_forall. intros h Ih. rewrite Forall_forall in Fz. specialize (Fz h Ih). cbn beta in Fz. lia.
    + exfalso. apply (N g Ig). destruct got; [constructor|]. exfalso. clear -E. revert g0 E. induction got as [|y l IH]; intros x E; [discriminate|]. exact (IH y E).
  - intros ->. destruct got as [|y l]; [reflexivity|]. destruct (Inc y). left. reflexivity.
Qed.

Lemma Forall2_last {A B} (R : A -> B -> Prop) l m : Forall2 R l m ->
  match last_opt l, last_opt m with Some a, Some b => R a b | None, None => l = [] /\ m = [] | _, _ => False end.
Proof.
  induction 1 as [|a b l m Hab H IH]; [cbn; auto|]. inversion H; subst; [exact Hab|].
  change (last_opt (a :: x :: l0)) with (last_opt (x :: l0)). change (last_opt (b :: y :: l')) with (last_opt (y :: l')).
  destruct (last_opt (x :: l0)), (last_opt (y :: l')); auto. destruct IH; discriminate.
Qed.

Lemma last_opt_map {A B} (f : A -> B) l : last_opt (map f l) = option_map f (last_opt l).
Proof. induction l as [|a [|b l] IH]; try reflexivity. exact IH. Qed.

Lemma rest_link m w s H l ln q : ninv w s H -> at_rest m w s -> nth_error (nt_links s) l = Some ln ->
  newest_is (accepted (H (ln_src ln))) q -> newest_is (accepted (H (S l))) q.
Proof.
  intros K Re E Nq. destruct (Re l ln E) as (Ov & Ph & Po & Fs). pose proof (ni_links _ _ _ K l ln E) as Lk.
  destruct (links_tracks w s H l ln K E) as (Ls & _).
  destruct (nth_error (nt_tracks s) (ln_src ln)) as [t|] eqn:Et; [|apply nth_error_None in Et; lia].
  pose proof (tk_inv _ _ (ni_tracks _ _ _ K) _ t Et) as Ti.
  set (L := nth (ln_cons ln) (groups (H (ln_src ln))) []) in *.
  assert (Wait : forall g, In g (accepted (H (ln_src ln))) -> ~ newer_than_all g L).
  { cbn [nstep] in Po. rewrite E in Po. unfold is_over in Po. rewrite Ov in Po.
    destruct (at_track m (ln_src ln) (TNext (ln_cons ln)) s) as [s1 y] eqn:A.
    destruct (at_track_eq _ _ _ _ _ _ _ Et A) as (t' & Stt & _).
    assert (Ey : y = TGot APending).
    { destruct y as [| | | | |[[g|]|e| |]|]; cbn in Po; try (injection Po; congruence); try reflexivity.
      - destruct (turn m ln (SGroup (g_seq g)) _) as [ln' z]. unfold finish_turn in Po. destruct (is_over ln').
        + destruct (at_track m (ln_src ln') _ _) as [s2 y2]. cbn in Po. discriminate Po.
        + cbn in Po. discriminate Po.
      - destruct (turn m ln SNoMore _) as [ln' z]. unfold finish_turn in Po. destruct (is_over ln').
        + destruct (at_track m (ln_src ln') _ _) as [s2 y2]. cbn in Po. discriminate Po.
        + cbn in Po. discriminate Po.
      - destruct (turn m ln (SError e) _) as [ln' z]. unfold finish_turn in Po. destruct (is_over ln').
        + destruct (at_track m (ln_src ln') _ _) as [s2 y2]. cbn in Po. discriminate Po.
        + cbn in Po. discriminate Po. }
    subst y. pose proof (next_inv m t _ _ t' _ Ti Stt ltac:(discriminate)) as Nx. fold L in Nx.
    destruct (tverdict (H (ln_src ln))) as [[|e]|]; [discriminate|discriminate|].
    destruct Nx as [(g & _ & _ & Eq)|(Nx & _)]; [discriminate|exact Nx]. }
  destruct (given_ok w s H (ln_src ln) (ln_cons ln) K) as (I1 & I2 & Inc). fold L in I2, Inc.
  pose proof (had_newest _ _ q I1 I2 Inc Wait Nq) as Nl.
  destruct (lk_str _ _ _ Lk) as [M1 M2 M3 M4]. fold L in M1.
  assert (Bound : forall g, In g (accepted (H (S l))) -> exists gl, In gl L /\ g_seq gl = g_seq g).
  { intros g Ig. destruct (M3 g Ig) as (src & a & I). apply In_nth_error in I. destruct I as (n & I).
    destruct (Forall2_at _ _ _ n _ M1 I) as (gl & Egl & Eq). cbn in Eq. injection Eq as Eq _.
    exists gl. split; [eapply nth_error_In; exact Egl|auto]. }
  destruct q as [n|]; cbn [newest_is] in *.
  - destruct Nl as (gl & (Igl & Fgl) & Eq).
    pose proof (Forall2_last _ _ _ M1) as La. rewrite last_opt_map in La.
    assert (Lz : exists z, last_opt L = Some z /\ g_seq z = n).
    { destruct (increasing_bound L gl I2 Igl) as (z & Ez & Iz & Le). exists z. split; [exact Ez|].
      rewrite Forall_forall in Fgl. specialize (Fgl z Iz). cbn beta in Fgl. lia. }
    destruct Lz as (z & Ez & Qz). rewrite Ez in La. destruct (last_opt (ln_streams ln)) as [st|] eqn:Est; [|contradiction].
    cbn in La. injection La as Q1 Q2.
    pose proof (fo_last _ _ (lk_fut _ _ _ Lk Ov) st Est) as Nc.
    assert (Ist : In st (ln_streams ln)) by (apply last_opt_In; exact Est).
    rewrite Forall_forall in Fs. destruct (Fs st Ist) as (_ & [Cc|Ca]); [congruence|].
    assert (Icore : In (core st) (map core (ln_streams ln))) by (apply in_map; exact Ist).
    assert (Ex : exists g, In g (accepted (H (S l))) /\ (n <= g_seq g)%N).
    { unfold core in Icore. destruct (st_at st) as [[j|]|]; [| |congruence].
      - exists (Group (st_seq st) j). split; [eapply M2; exact Icore|]. cbn. lia.
      - destruct (M4 Ph _ _ Icore) as (g & Ig & Le). exists g. split; [exact Ig|]. lia. }
    destruct Ex as (g & Ig & Le). rewrite Forall_forall in Fgl. exists g. split.
    + split; [exact Ig|]. apply Forall_forall. intros h Ih. destruct (Bound h Ih) as (hl & Ihl & Eh). specialize (Fgl hl Ihl). cbn beta in Fgl. lia.
    + destruct (Bound g Ig) as (hl & Ihl & Eh). specialize (Fgl hl Ihl). cbn beta in Fgl. lia.
  - destruct (accepted (H (S l))) as [|g A]; [reflexivity|]. destruct (Bound g (or_introl eq_refl)) as (gl & Igl & _). rewrite Nl in Igl. contradiction.
Qed.

Lemma rest_all m w s H q : ninv w s H -> at_rest m w s -> newest_is (accepted (H 0)) q ->
  forall i, i <= length (nt_links s) -> newest_is (accepted (H i)) q.
Proof.
  intros K Re N0 i. induction i as [i IH] using lt_wf_ind. intros Li. destruct i as [|l]; [exact N0|].
  destruct (nth_error (nt_links s) l) as [ln|] eqn:E; [|apply nth_error_None in E; lia].
  apply (rest_link m w s H l ln q K Re E). pose proof (lk_src _ _ _ (ni_links _ _ _ K l ln E)). apply IH; lia.
Qed.

Lemma converges m w ops q i : (62 <= w)%N -> Forall modest ops ->
  let r := nrun m w net_new ops in
  at_rest m w (fst r) -> newest_is (taken 0 (snd r)) q -> i < length (nt_tracks (fst r)) -> newest_is (taken i (snd r)) q.
Proof.
  intros W M r Re N0 Li. destruct (run_inv w m ops W M) as (H & K & EH). unfold taken in *. rewrite <- EH in *.
  fold r in K. apply (rest_all m w _ H q K Re N0). rewrite (tk_len _ _ (ni_tracks _ _ _ K)) in Li. lia.
Qed.

Lemma reader_converges m w ops q i c a : (62 <= w)%N -> Forall modest ops -> 1 <= i ->
  let r := nrun m w net_new ops in
  at_rest m w (fst r) -> newest_is (taken 0 (snd r)) q ->
  no_did (snd (nstep m w (fst r) (NUse i (TNext c)))) = [(i, (TNext c, TGot a))] ->
  (exists g, a = AOk (Some g) /\ q = Some (g_seq g)) \/ (a = APending /\ newest_is (given i c (snd r)) q).
Proof.
  intros W M Li r Re N0 St. destruct (run_inv w m ops W M) as (H & K & EH). unfold given, taken in *. rewrite <- EH in *.
  fold r in K. cbn [nstep] in St.
  destruct (Nat.ltb i (length (nt_tracks (fst r))) && may_use (fst r) i (TNext c)) eqn:G; [|discriminate St].
  apply andb_true_iff in G. destruct G as (L & _). apply Nat.ltb_lt in L.
  destruct (nth_error (nt_tracks (fst r)) i) as [t|] eqn:Et; [|apply nth_error_None in Et; lia].
  destruct (at_track m i (TNext c) (fst r)) as [s1 y] eqn:A. cbn in St. injection St as ->.
  destruct (at_track_eq _ _ _ _ _ _ _ Et A) as (t' & Stt & _).
  pose proof (tk_inv _ _ (ni_tracks _ _ _ K) i t Et) as Ti.
  pose proof (next_inv m t _ c t' _ Ti Stt ltac:(discriminate)) as Nx.
  destruct i as [|l]; [lia|].
  assert (Ll : l < length (nt_links (fst r))) by (rewrite (tk_len _ _ (ni_tracks _ _ _ K)) in L; lia).
  destruct (nth_error (nt_links (fst r)) l) as [ln|] eqn:E; [|apply nth_error_None in E; lia].
  destruct (Re l ln E) as (_ & Ph & _ & _). pose proof (lk_open _ _ _ (ni_links _ _ _ K l ln E) Ph) as V.
  rewrite V in Nx. pose proof (rest_all m w _ H q K Re N0 (S l) ltac:(lia)) as Nq.
  destruct Nx as [(g & (Ig & Fg) & _ & Eq)|(Nx & Eq)].
  - left. injection Eq as ->. exists g. split; [reflexivity|]. destruct q as [n|]; cbn in Nq.
    + destruct Nq as (g' & (Ig' & Fg') & <-). rewrite Forall_forall in Fg, Fg'. specialize (Fg _ Ig'). specialize (Fg' _ Ig). cbn beta in *. f_equal. lia.
    + rewrite Nq in Ig. contradiction.
  - right. assert (Al : tsys_alive t = true).
    { pose proof (ni_prod _ _ _ K l ln t E Et ltac:(rewrite Ph; discriminate)) as Pr. unfold tsys_alive.
      apply orb_true_iff. left. apply existsb_exists. exists (Some Idle). split; [|reflexivity].
      unfold get in Pr. destruct (nth_error (ts_prods t) 1) as [[o|]|] eqn:E1; [|discriminate|discriminate]. injection Pr as ->. eapply nth_error_In. exact E1. }
    rewrite Al in Eq. injection Eq as ->. split; [reflexivity|].
    destruct (given_ok w _ H (S l) c K) as (I1 & I2 & Inc). exact (had_newest _ _ q I1 I2 Inc Nx Nq).
Qed.

(** * Ends *)

Lemma end_at w s H i : ninv w s H -> 1 <= i ->
  tverdict (H i) = None \/ tverdict (H i) = Some Finished \/ tverdict (H i) = Some (Failed Cancel).
Proof.
  intros K Li. destruct i as [|l]; [lia|]. destruct (tverdict (H (S l))) as [[|e]|] eqn:V; auto.
  right. right. destruct (nth_error (nt_links s) l) as [ln|] eqn:E.
  - rewrite (lk_why _ _ _ (ni_links _ _ _ K l ln E) e V). reflexivity.
  - apply nth_error_None in E. rewrite (tk_none _ _ (ni_tracks _ _ _ K)) in V; [discriminate|]. rewrite (tk_len _ _ (ni_tracks _ _ _ K)). lia.
Qed.

Lemma finished_up w s H : ninv w s H -> forall i, finished_in (H i) -> finished_in (H 0).
Proof.
  intros K i. induction i as [i IH] using lt_wf_ind. intros F. destruct i as [|l]; [exact F|].
  destruct (nth_error (nt_links s) l) as [ln|] eqn:E.
  - pose proof (ni_links _ _ _ K l ln E) as Lk. pose proof (lk_src _ _ _ Lk). apply (IH (ln_src ln)); [lia|].
    apply (lk_ret _ _ _ Lk). apply (lk_fin _ _ _ Lk). exact F.
  - exfalso. apply nth_error_None in E. rewrite (tk_none _ _ (ni_tracks _ _ _ K)) in F.
    + destruct F as (p & []).
    + rewrite (tk_len _ _ (ni_tracks _ _ _ K)). lia.
Qed.

Lemma ends m w ops i : (62 <= w)%N -> Forall modest ops -> 1 <= i ->
  let tr := snd (nrun m w net_new ops) in
  match verdict i tr with
  | None => True
  | Some Finished => was_finished 0 tr
  | Some (Failed e) => e = Cancel
  end.
Proof.
  intros W M Li tr. destruct (run_inv w m ops W M) as (H & K & EH). unfold verdict, was_finished, tr. rewrite <- !EH.
  destruct (end_at w _ H i K Li) as [V|[V|V]]; rewrite V; auto.
  apply (finished_up w _ H K i). apply tverdict_finished. exact V.
Qed.
