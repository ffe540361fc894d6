(** Several hops. *)
From Coq Require Import NArith ZArith List Lia Bool.
From Coq Require Import Init.Byte Strings.Byte.
From Coq Require Import ZifyBool ZifyNat ZifyN.
From Verif.Model Require Import Base Coding Message ErrorCode Stream Frame Transfer.
From Verif.Spec Require Import CodingSpec MessageSpec StreamSpec TransferSpec.
From Verif.Proofs Require Import BaseP CodingP MessageP StreamP TransferP TransferTop.
Import ListNotations.
Open Scope N_scope.

Lemma seal_seal l : map seal (map seal l) = map seal l.
Proof. rewrite map_map. apply map_ext. intros [[? ?] ?]. reflexivity. Qed.

Lemma fully_seal l : Forall fully (map seal l) <-> Forall fully l.
Proof. rewrite Forall_map. split; intros H; (eapply Forall_impl; [|exact H]); intros [[? ?] ?] Hf; exact Hf. Qed.

(** Split a list that starts with sealed frames. *)
Lemma split_sealed : forall pre tl pre' suf', map seal pre ++ tl = pre' ++ suf' ->
  (exists p1 p2, pre = p1 ++ p2 /\ pre' = map seal p1 /\ suf' = map seal p2 ++ tl) \/
  (exists y tl1, pre' = map seal pre ++ y :: tl1 /\ tl = y :: tl1 ++ suf').
Proof.
  induction pre as [|x pre IH]; intros tl pre' suf' E.
  - cbn in E. destruct pre' as [|y pre'].
    + left. exists [], []. cbn in *. auto.
    + right. exists y, pre'. cbn in *. auto.
  - destruct pre' as [|y pre'].
    + left. exists [], (x :: pre). cbn in *. auto.
    + cbn in E. injection E as Ey E. destruct (IH tl pre' suf' E) as [(p1 & p2 & -> & -> & ->)|(z & tl1 & -> & ->)].
      * left. exists (x :: p1), p2. cbn. rewrite Ey. auto.
      * right. exists z, tl1. cbn. rewrite Ey. auto.
Qed.

Lemma copy_trans a b c : copy a b -> copy b c -> copy a c.
Proof.
  intros (pre & suf & Ea & Fa & Hb) (pre' & suf' & Eb & Fb & Hc).
  assert (K : exists tl, b = map seal pre ++ tl /\
     (tl = [] \/ exists size data o part o' suf1, suf = (size, data, o) :: suf1 /\ tl = [(size, part, o')] /\
        prefix part data /\ N.of_nat (length part) < size /\ o' <> Some Finished)).
  { destruct Hb as [->|(size & data & o & part & o' & s1 & H1 & H2 & H3 & H4 & H5)].
    - exists []. rewrite app_nil_r. auto.
    - exists [(size, part, o')]. split; [exact H2|]. right. exists size, data, o, part, o', s1. auto. }
  destruct K as (tl & Eb' & Htl). rewrite Eb' in Eb.
  destruct (split_sealed _ _ _ _ Eb) as [(p1 & p2 & -> & -> & ->)|(y & tl1 & -> & Et)].
  - rewrite seal_seal in Hc. apply Forall_app in Fa. destruct Fa as [Fa1 Fa2].
    exists p1, (p2 ++ suf). split; [rewrite Ea, app_assoc; reflexivity|]. split; [exact Fa1|].
    destruct Hc as [->|(size & data & o & part & o' & s1 & H1 & H2 & H3 & H4 & H5)]; [left; reflexivity|].
    right. destruct p2 as [|x p2].
    + cbn in H1. destruct Htl as [->|(sz & dt & oo & pt & oo' & sf & G1 & G2 & G3 & G4 & G5)]; [discriminate|].
      rewrite G2 in H1. injection H1 as -> -> -> _.
      exists size, dt, oo, part, o', sf. cbn. repeat split; auto. eapply prefix_trans; eassumption.
    + cbn in H1. destruct x as [[sz dt] oo]. cbn in H1. injection H1 as -> -> _ _.
      exists size, data, oo, part, o', (p2 ++ suf). cbn. repeat split; auto.
  - exfalso. destruct Htl as [->|(sz & dt & oo & pt & oo' & sf & G1 & G2 & G3 & G4 & G5)]; [discriminate|].
    rewrite G2 in Et. injection Et as Ey _. subst y. apply Forall_app in Fb. destruct Fb as [_ Fb].
    inversion Fb as [|? ? Hf _]; subst. unfold fully in Hf. cbn in Hf. lia.
Qed.

Definition fview (live : bool) (f : N * frame_state) : frame_view :=
  FrameView (fst f) (fs_chunks (snd f)) (end_view live (fs_closed (snd f))).

Lemma end_view_ok live o : end_view live o = AOk tt -> o = Some Finished.
Proof. destruct o as [[|e]|]; cbn; try discriminate; [reflexivity|]. destruct live; discriminate. Qed.

Lemma sound_view w live g : sound_group w g ->
  Forall honest_frame (gv_frames (view_of live g)) /\ Forall (sizes_fit w) (gv_frames (view_of live g)).
Proof.
  intros H. unfold view_of, sound_group in *. cbn [gv_frames]. rewrite !Forall_map. split.
  - eapply Forall_impl; [|exact H]. intros f (H1 & H2 & _). split; cbn [fv_chunks fv_size fv_end]; [exact H1|].
    intros E. apply H2. exact (end_view_ok _ _ E).
  - eapply Forall_impl; [|exact H]. intros f (_ & _ & H3 & H4). split; assumption.
Qed.

Lemma nth_error_split' {A} : forall (l : list A) n x, nth_error l n = Some x -> l = firstn n l ++ x :: skipn (S n) l.
Proof.
  induction l as [|y l IH]; intros [|n] x H; try discriminate.
  - cbn in *. injection H as ->. reflexivity.
  - cbn in *. f_equal. apply IH. exact H.
Qed.

Lemma arrived_copy live g got : arrived_from (gv_frames (view_of live g)) got -> copy (frames_of g) got.
Proof.
  set (sf := fun f : N * frame_state => (fst f, concat (fs_chunks (snd f)), fs_closed (snd f))).
  intros (n & F & H). unfold view_of in *. cbn [gv_frames] in *.
  change (map _ (rg_frames g)) with (map (fview live) (rg_frames g)) in *.
  rewrite firstn_map in *. rewrite Forall_map in F.
  assert (W : map whole (map (fview live) (firstn n (rg_frames g))) = map seal (map sf (firstn n (rg_frames g)))).
  { rewrite !map_map. reflexivity. }
  assert (FF : Forall fully (map sf (firstn n (rg_frames g)))).
  { rewrite Forall_map. eapply Forall_impl; [|exact F]. intros f Hf. exact Hf. }
  destruct H as [->|(f & part & o & H1 & H2 & H3 & H4 & H5)].
  - exists (map sf (firstn n (rg_frames g))), (map sf (skipn n (rg_frames g))). split.
    + unfold frames_of. rewrite <- map_app, firstn_skipn. reflexivity.
    + split; [exact FF|]. left. exact W.
  - rewrite nth_error_map in H1. destruct (nth_error (rg_frames g) n) as [x|] eqn:E; [|discriminate].
    cbn in H1. injection H1 as <-. apply nth_error_split' in E.
    exists (map sf (firstn n (rg_frames g))), (map sf (x :: skipn (S n) (rg_frames g))). split.
    + unfold frames_of. fold sf. rewrite <- map_app. rewrite <- E. reflexivity.
    + split; [exact FF|]. right. exists (fst x), (concat (fs_chunks (snd x))), (fs_closed (snd x)), part, o.
      eexists. split; [reflexivity|]. rewrite H2, W. repeat split; auto.
Qed.

Lemma hop_copy w g g' : 62 <= w -> sound_group w g -> hop w g g' ->
  copy (frames_of g) (frames_of g') /\ sound_group w g' /\
  (rg_closed g' = Some Finished -> finished_group g /\ frames_of g' = frames_of g).
Proof.
  intros Hw S (hdr & live & sched & sv & s & r & canc & t & Hh & Es & De & Rc).
  destruct (sound_view w live g S) as [HF SF]. pose proof De as (P & NE & Tr).
  pose proof (group_cut w canc hdr (view_of live g) sched sv s r Hh HF SF Es P NE) as G.
  pose proof (hostile_stream w canc r Hw NE) as Ho. rewrite Rc in G, Ho.
  split; [apply (arrived_copy live); apply G|]. split; [apply Ho|].
  intros Cl. destruct (group_finished_full w canc hdr _ sched sv s r t g' Hh HF SF Es De Rc Cl) as ((W & E) & Fr).
  unfold view_of in *. cbn [gv_frames gv_end] in *. apply end_view_ok in E. rewrite Forall_map in W.
  assert (FG : Forall (fun f => fs_closed (snd f) = Some Finished) (rg_frames g)).
  { eapply Forall_impl; [|exact W]. intros f Hf. exact (end_view_ok _ _ Hf). }
  split; [split; assumption|]. rewrite Fr. unfold frames_of. rewrite map_map.
  apply map_ext_in. intros f Hf. rewrite Forall_forall in FG. rewrite (FG f Hf). reflexivity.
Qed.

Lemma hops_copy w g g' : 62 <= w -> sound_group w g -> hops w g g' ->
  copy (frames_of g) (frames_of g') /\ sound_group w g' /\
  (rg_closed g' = Some Finished -> finished_group g /\ frames_of g' = frames_of g).
Proof.
  intros Hw S H. induction H as [g g' H|g g1 g2 H1 IH H2].
  - apply hop_copy; assumption.
  - destruct (IH S) as (C1 & S1 & F1). destruct (hop_copy w g1 g2 Hw S1 H2) as (C2 & S2 & F2).
    split; [eapply copy_trans; eassumption|]. split; [exact S2|].
    intros Cl. destruct (F2 Cl) as ((Cl1 & _) & E2). destruct (F1 Cl1) as (Fg & E1). split; [exact Fg|congruence].
Qed.

Lemma full_hop_same w g g' : sound_group w g -> finished_group g -> full_hop w g g' ->
  frames_of g' = frames_of g /\ finished_group g'.
Proof.
  intros S [Cl FG] (hdr & live & sched & s & r & canc & t & Hh & Es & Co & En & NE & Rc).
  destruct (sound_view w live g S) as [HF SF].
  destruct (group_intact w canc hdr (view_of live g) sched s r Hh HF SF Es Co En NE) as (g1 & R1 & C1 & F1).
  rewrite Rc in R1. injection R1 as _ ->.
  assert (E : frames_of g1 = frames_of g).
  { rewrite F1. unfold frames_of, view_of. cbn [gv_frames]. rewrite map_map.
    apply map_ext_in. intros f Hf. rewrite Forall_forall in FG. rewrite (FG f Hf). reflexivity. }
  split; [exact E|]. split; [exact C1|].
  unfold frames_of in E.
  assert (Forall (fun x : seen_frame => snd x = Some Finished)
     (map (fun f : N * frame_state => (fst f, concat (fs_chunks (snd f)), fs_closed (snd f))) (rg_frames g1))) as HH.
  { rewrite E. rewrite Forall_map. exact FG. }
  rewrite Forall_map in HH. exact HH.
Qed.

Lemma full_hop_sound w g g' : 62 <= w -> full_hop w g g' -> sound_group w g'.
Proof.
  intros Hw (hdr & live & sched & s & r & canc & t & Hh & Es & Co & En & NE & Rc).
  pose proof (hostile_stream w canc r Hw NE) as Ho. rewrite Rc in Ho. apply Ho.
Qed.

Lemma full_hops_same w g g' : 62 <= w -> sound_group w g -> finished_group g -> full_hops w g g' ->
  frames_of g' = frames_of g /\ finished_group g' /\ sound_group w g'.
Proof.
  intros Hw S F H. induction H as [g|g g1 g2 H1 IH H2].
  - auto.
  - destruct (IH S F) as (E1 & F1 & S1). destruct (full_hop_same w g1 g2 S1 F1 H2) as (E2 & F2).
    split; [congruence|]. split; [exact F2|]. exact (full_hop_sound w g1 g2 Hw H2).
Qed.

(** An undisturbed hop exists for every finished group. *)
Lemma full_hop_exists w g hdr : sound_group w g -> finished_group g -> header_ok hdr ->
  exists total, forall sched, lively sched -> (total <= length sched)%nat ->
  exists s, serve_group hdr (view_of false g) (Send [] sched) = (SFinished, s) /\
  forall r, content r = sd_sent s -> ends r = Fin -> no_empty_piece r ->
  exists g', full_hop w g g' /\ recv_stream w false r = Arrived hdr TDone g'.
Proof.
  intros S [Cl FG] Hh. destruct (sound_view w false g S) as [HF SF].
  assert (FV : finished_view (view_of false g)).
  { split; unfold view_of; cbn [gv_frames gv_end].
    - rewrite Forall_map. eapply Forall_impl; [|exact FG]. intros f Hf. unfold is_whole. cbn. rewrite Hf. reflexivity.
    - rewrite Cl. reflexivity. }
  destruct (serve_completes hdr (view_of false g) Hh FV (sizes_62 _ _ SF)) as (total & T).
  exists total. intros sched L B. destruct (T sched L B) as (s & Es). exists s. split; [exact Es|].
  intros r Co En NE.
  destruct (group_intact w false hdr (view_of false g) sched s r Hh HF SF Es Co En NE) as (g1 & R1 & _).
  exists g1. split; [|exact R1]. exists hdr, false, sched, s, r, false, TDone. auto 10.
Qed.

(** ** 32-bit receivers: a frame of 2^32 bytes never terminates and never yields *)
Lemma frame_livelock : forall fuel st b buf cs e, fs_closed st = None ->
  let '(t, _, r') := run_frame 32 fuel (2 ^ 32) (2 ^ 32) 0 st (Reader (b :: buf) (Recv cs e)) in
  t = TFuel /\ r' = Reader (b :: buf) (Recv cs e).
Proof.
  assert (K : forall fuel st b buf cs e, fs_closed st = None ->
    run_frame 32 (S fuel) (2 ^ 32) (2 ^ 32) 0 st (Reader (b :: buf) (Recv cs e)) =
    run_frame 32 fuel (2 ^ 32) (2 ^ 32) 0 (FrameState (fs_chunks st ++ [[]]) None) (Reader (b :: buf) (Recv cs e))).
  { intros fuel st b buf cs e H. remember (FrameState (fs_chunks st ++ [[]]) None) as st2 eqn:E2.
    cbn [run_frame].
    replace (2 ^ 32 =? 0) with false by reflexivity.
    replace (2 ^ 32 mod 2 ^ 32) with 0 by reflexivity.
    unfold reader_read. cbn [rd_buf rd_stream]. rewrite take_0, drop_0.
    replace (2 ^ 32 <? len []) with false by reflexivity.
    unfold frame_write. replace (0 + len [] <=? 2 ^ 32 mod 2 ^ 32) with true by reflexivity.
    rewrite H. subst st2. reflexivity. }
  induction fuel as [|fuel IH]; intros st b buf cs e H.
  - cbn [run_frame]. replace (2 ^ 32 =? 0) with false by reflexivity. auto.
  - rewrite K by exact H. apply IH. reflexivity.
Qed.
