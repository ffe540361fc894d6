(** Contents: filling a group keeps its copies copies. *)
From Coq Require Import NArith ZArith List Lia Bool Arith.
From Coq Require Import Init.Byte Strings.Byte.
From Coq Require Import ZifyBool ZifyNat ZifyN.
From Verif.Model Require Import Base Coding Message ErrorCode Stream Frame FrameSys TrackSys Publisher Transfer Net.
From Verif.Spec Require Import CodingSpec MessageSpec StreamSpec TrackSpec TransferSpec NetSpec.
From Verif.Proofs Require Import BaseP CodingP CodingTop MessageP StreamP TableP TransferP TransferTop RelayP.
Import ListNotations.
Open Scope nat_scope.

Definition grown (f f' : seen_frame) : Prop :=
  fst (fst f') = fst (fst f) /\ prefix (snd (fst f)) (snd (fst f')) /\ (fully f -> snd (fst f') = snd (fst f)).

Lemma grown_refl f : grown f f.
Proof. split; [|split]; auto. apply prefix_refl. Qed.

Lemma Forall2_same {A} (R : A -> A -> Prop) l : (forall x, R x x) -> Forall2 R l l.
Proof. intros H. induction l; constructor; auto. Qed.

Lemma seal_grown : forall l l', Forall2 grown l l' -> Forall fully l -> map seal l' = map seal l /\ Forall fully l'.
Proof.
  induction 1 as [|f f' l l' H _ IH]; intros F; [split; [reflexivity|constructor]|].
  inversion F; subst. destruct (IH H3) as (E & F'). destruct f as [[sz d] o], f' as [[sz' d'] o'].
  destruct H as (H & _ & G). specialize (G H2). unfold seal, fully in *. cbn in *. subst sz' d'.
  split; [rewrite E; reflexivity|]. constructor; auto.
Qed.

Lemma copy_grown src a b got : Forall2 grown src a -> copy src got -> copy (a ++ b) got.
Proof.
  intros G (pre & suf & -> & F & H). apply Forall2_app_inv_l in G. destruct G as (a1 & a2 & G1 & G2 & ->).
  destruct (seal_grown _ _ G1 F) as (E & F'). exists a1, (a2 ++ b). rewrite <- app_assoc. split; [reflexivity|]. split; [exact F'|].
  rewrite E. destruct H as [H|(sz & d & o & part & o' & suf' & -> & H1 & H2 & H3 & H4)]; [auto|]. right.
  inversion G2 as [|x y l l' Gx Gl]; subst. destruct y as [[sz' d'] o'']. destruct Gx as (Gx & Gp & _). cbn in Gx, Gp. subst sz'.
  exists sz, d', o'', part, o', (l' ++ b). split; [reflexivity|]. split; [reflexivity|]. split; [|auto].
  eapply prefix_trans; eassumption.
Qed.

Definition seen (f : N * frame_state) : seen_frame := (fst f, concat (fs_chunks (snd f)), fs_closed (snd f)).
Lemma frames_seen g : frames_of g = map seen (rg_frames g).
Proof. reflexivity. Qed.

Definition sound_frame (w : N) (f : N * frame_state) : Prop :=
  (N.of_nat (length (concat (fs_chunks (snd f)))) <= fst f)%N /\
  (fs_closed (snd f) = Some Finished -> N.of_nat (length (concat (fs_chunks (snd f)))) = fst f) /\
  (fst f < 2 ^ 62)%N /\ (fst f < 2 ^ w)%N.
Lemma sound_frames w g : sound_group w g <-> Forall (sound_frame w) (rg_frames g).
Proof. reflexivity. Qed.

Lemma fill_frame_ok w o f f' : sound_frame w f -> fill_frame w o f = Some f' ->
  sound_frame w f' /\ grown (seen f) (seen f') /\ fs_closed (snd f) = None.
Proof.
  destruct f as [size [cs cl]]. intros (S1 & S2 & S3 & S4) H. cbn [fst snd fs_chunks fs_closed] in *.
  unfold fill_frame in H. cbn [fs_closed fs_chunks] in H. destruct cl as [c|]; [discriminate|].
  assert (M : (size mod 2 ^ w = size)%N) by (apply N.mod_small; exact S4).
  destruct o as [sz|f c|f|f e|e]; try discriminate.
  - unfold frame_write in H. rewrite M in H. cbn [fs_closed fs_chunks snd] in H. unfold len in H.
    destruct (N.leb_spec (N.of_nat (length (concat cs)) + N.of_nat (length c)) size) as [L|L]; [|discriminate].
    injection H as <-. unfold sound_frame, seen, grown, fully. cbn [fst snd fs_chunks fs_closed].
    rewrite concat_app, app_length. cbn [concat]. rewrite app_nil_r.
    split; [split; [lia|]; split; [discriminate|auto]|]. split; [|reflexivity].
    split; [reflexivity|]. split; [exists c; reflexivity|]. intros E. destruct c as [|b c]; [apply app_nil_r|].
    cbn [length] in L. lia.
  - unfold frame_finish in H. rewrite M in H. cbn [fs_closed fs_chunks snd] in H.
    destruct (N.eqb_spec (N.of_nat (length (concat cs))) size) as [L|L]; [|discriminate].
    injection H as <-. unfold sound_frame, seen, grown, fully. cbn [fst snd fs_chunks fs_closed].
    split; [split; [lia|]; split; [intros _; exact L|auto]|]. split; [|reflexivity].
    split; [reflexivity|]. split; [apply prefix_refl|auto].
  - injection H as <-. unfold frame_abort, sound_frame, seen, grown, fully. cbn [fst snd fs_chunks fs_closed].
    split; [split; [lia|]; split; [discriminate|auto]|]. split; [|reflexivity].
    split; [reflexivity|]. split; [apply prefix_refl|auto].
Qed.

Lemma Forall_set {A} (P : A -> Prop) n x : forall l, Forall P l -> P x -> Forall P (set_nth n x l).
Proof. induction n; intros [|y l] H Hx; cbn; auto; inversion H; subst; constructor; auto. Qed.

Lemma Forall2_set_same {A} (R : A -> A -> Prop) n x y : forall l, (forall z, R z z) -> nth_error l n = Some y -> R y x ->
  Forall2 R l (set_nth n x l).
Proof.
  induction n; intros [|z l] Hr E Hx; try discriminate; cbn in *.
  - injection E as ->. constructor; auto. apply Forall2_same. auto.
  - constructor; auto.
Qed.

Lemma map_set {A B} (f : A -> B) n x : forall l, map f (set_nth n x l) = set_nth n (f x) (map f l).
Proof. induction n; intros [|y l]; cbn; auto. rewrite IHn. reflexivity. Qed.

Lemma fill_ok w o g g' : (62 <= w)%N -> modest (NFill 0 o) -> sound_group w g -> fill w o g = Some g' ->
  sound_group w g' /\ ~ finished_group g /\ exists a b, frames_of g' = a ++ b /\ Forall2 grown (frames_of g) a.
Proof.
  intros W M S H. destruct g as [fs cl]. unfold fill in H. cbn [rg_closed rg_frames] in H.
  assert (FR : forall f o', (exists f x x', nth_error fs f = Some x /\ fill_frame w o' x = Some x' /\
                g' = RGroup (set_nth f x' fs) cl) -> f = 0 ->
          sound_group w g' /\ ~ finished_group (RGroup fs cl) /\
          exists a b, frames_of g' = a ++ b /\ Forall2 grown (frames_of (RGroup fs cl)) a).
  { intros _ o' (f & x & x' & E & Ef & ->) _.
    assert (Sx : sound_frame w x) by (eapply Forall_forall; [exact (proj1 (sound_frames w _) S)|]; eapply nth_error_In; exact E).
    destruct (fill_frame_ok w o' x x' Sx Ef) as (S' & G & C).
    split; [apply sound_frames; cbn [rg_frames]; apply Forall_set; auto|]. split.
    - intros (_ & F). cbn [rg_frames] in F. eapply Forall_forall in F; [|eapply nth_error_In; exact E]. congruence.
    - exists (frames_of (RGroup (set_nth f x' fs) cl)), []. split; [rewrite app_nil_r; reflexivity|].
      rewrite !frames_seen. cbn [rg_frames]. rewrite map_set. eapply Forall2_set_same.
      + apply grown_refl. + rewrite nth_error_map, E. reflexivity. + exact G. }
  destruct o as [size|f c|f|f e|e].
  - destruct cl; [discriminate|]. injection H as <-. cbn in M. split; [|split].
    + apply sound_frames. cbn [rg_frames]. apply Forall_app. split; [exact S|]. constructor; [|constructor].
      unfold sound_frame. cbn. split; [lia|]. split; [discriminate|]. split; [exact M|].
      eapply N.lt_le_trans; [exact M|]. exact (N.pow_le_mono_r 2 62 w ltac:(discriminate) W).
    + intros (F & _). discriminate.
    + exists (frames_of (RGroup fs None)), [seen (size, frame_new)]. split; [|apply Forall2_same, grown_refl].
      rewrite !frames_seen. cbn [rg_frames]. rewrite map_app. reflexivity.
  - apply (FR 0 (GWrite f c)); [|reflexivity]. destruct (nth_error fs f) as [x|] eqn:E; [|discriminate].
    destruct (fill_frame w (GWrite f c) x) as [x'|] eqn:Ef; [|discriminate]. injection H as <-. eauto 10.
  - apply (FR 0 (GDone f)); [|reflexivity]. destruct (nth_error fs f) as [x|] eqn:E; [|discriminate].
    destruct (fill_frame w (GDone f) x) as [x'|] eqn:Ef; [|discriminate]. injection H as <-. eauto 10.
  - apply (FR 0 (GAbort f e)); [|reflexivity]. destruct (nth_error fs f) as [x|] eqn:E; [|discriminate].
    destruct (fill_frame w (GAbort f e) x) as [x'|] eqn:Ef; [|discriminate]. injection H as <-. eauto 10.
  - destruct cl; [discriminate|]. injection H as <-. split; [exact S|]. split; [intros (F & _); discriminate|].
    exists (frames_of (RGroup fs None)), []. split; [rewrite app_nil_r; reflexivity|]. apply Forall2_same, grown_refl.
Qed.

Lemma fill_copy w o g g' h : (62 <= w)%N -> modest (NFill 0 o) -> sound_group w g -> fill w o g = Some g' ->
  copy_of g h -> copy_of g' h.
Proof.
  intros W M S H (C & F). destruct (fill_ok w o g g' W M S H) as (_ & NF & a & b & E & G). split.
  - rewrite E. eapply copy_grown; eassumption.
  - intros Cl. destruct (F Cl) as (F' & _). contradiction.
Qed.

(** One hop, as the model performs it. *)
Lemma prefixb_prefix p : forall l, prefixb p l = true <-> prefix p l.
Proof.
  induction p as [|a p IH]; intros l.
  - split; [intros _; exists l; reflexivity|reflexivity].
  - destruct l as [|b l]; cbn [prefixb].
    + split; [discriminate|]. intros (q & Q). discriminate.
    + rewrite andb_true_iff, IH. split.
      * intros (E & q & ->). apply Byte.byte_dec_bl in E. subst. exists q. reflexivity.
      * intros (q & Q). injection Q as -> ->. split; [apply Byte.byte_dec_lb; reflexivity|exists q; reflexivity].
Qed.

Lemma possible_delivered sv s r : possible sv s r = true -> delivered sv s r.
Proof.
  unfold possible. rewrite !andb_true_iff. intros ((P & NE) & F). apply prefixb_prefix in P.
  split; [exact P|]. split.
  - apply Forall_forall. rewrite forallb_forall in NE. intros c Hc E. subst. specialize (NE _ Hc). discriminate.
  - intros E. unfold ends in E. rewrite E in F. destruct sv; try discriminate. split; [reflexivity|].
    apply prefixb_prefix in F. destruct P as (q & P), F as (q' & F). unfold content. fold (bytes_of r).
    rewrite F in P. rewrite <- app_assoc in P. rewrite <- (app_nil_r (sd_sent s)) in P at 1. apply app_inv_head in P.
    symmetry in P. apply app_eq_nil in P. destruct P as (-> & _). rewrite app_nil_r in F. exact F.
Qed.

Lemma u64_encodes v : (v < 2 ^ 62)%N \/ u64_encode v = Panic.
Proof. destruct (N.lt_ge_cases v (2 ^ 62)) as [L|L]; [auto|]. right. apply u64_encode_panic. exact L. Qed.
Lemma header_encodes hdr : header_ok hdr \/ group_header_encode hdr = Panic.
Proof.
  unfold header_ok, group_header_encode, eseq. destruct (u64_encodes (gh_subscribe hdr)) as [L1|E1]; [|rewrite E1; auto].
  destruct (u64_encodes (gh_sequence hdr)) as [L2|E2]; [auto|]. right. rewrite E2. destruct (u64_encode (gh_subscribe hdr)); reflexivity.
Qed.

Lemma recv_header w canc hdr v sched sv s r h t g :
  serve_group hdr v (Send [] sched) = (sv, s) -> delivered sv s r -> recv_stream w canc r = Arrived h t g -> header_ok hdr.
Proof.
  intros Es (P & _ & _) Rc.
  destruct (header_encodes hdr) as [H|H]; [exact H|]. exfalso.
  assert (B : sd_sent s = [] \/ sd_sent s = [x00]).
  { unfold serve_group, then_encode, writer_encode in Es. rewrite stype in Es. rewrite H in Es.
    unfold then_write in Es. change (wire [PInt 1 BE 0]) with [x00] in Es. cbn [sd_sent sd_sched] in Es.
    destruct (push [x00] [] sched) as [a s1] eqn:Ep.
    assert (B : sd_sent s1 = [] \/ sd_sent s1 = [x00]).
    { assert (Q : forall sch, sd_sent (snd (push [x00] [] sch)) = [] \/ sd_sent (snd (push [x00] [] sch)) = [x00]).
      { induction sch as [|[[|n]|] sch IH]; cbn.
        - auto. - exact IH. - rewrite skipn_nil, firstn_nil, push_nil. auto. - auto. }
      specialize (Q sched). rewrite Ep in Q. exact Q. }
    cbn [fst snd] in Es. destruct a as [[]|e| |]; cbn [of_await] in Es; injection Es as <- <-; exact B. }
  assert (Cr : content r = [] \/ content r = [x00]).
  { destruct P as (q & P). destruct B as [B|B]; rewrite B in P.
    - symmetry in P. apply app_eq_nil in P. left. apply P.
    - destruct (content r) as [|b l]; [auto|]. injection P as <- P. symmetry in P. apply app_eq_nil in P.
      destruct P as (-> & _). auto. }
  unfold recv_stream in Rc.
  pose proof (reader_decode_flat data_type_decode r (good_kind w KData)) as D1.
  destruct (reader_decode data_type_decode r) as [a1 r1]. destruct D1 as (D1 & R1).
  destruct Cr as [Cr|Cr]; rewrite Cr in D1.
  - unfold flat_decode in D1. change (data_type_decode []) with (@DErr data_type Short) in D1. cbv iota in D1.
    injection D1 as Ea _. subst a1. destruct (ends r); discriminate.
  - unfold flat_decode in D1. change (data_type_decode [x00]) with (DOk DGroup (@nil byte)) in D1. cbv iota in D1.
    injection D1 as Ea Er. subst a1.
    pose proof (reader_decode_flat group_header_decode r1 (good_kind w KGroup)) as D2.
    destruct (reader_decode group_header_decode r1) as [a2 r2]. destruct D2 as (D2 & R2).
    rewrite Er in D2. unfold flat_decode in D2. change (group_header_decode []) with (@DErr group_header Short) in D2.
    cbv iota in D2. injection D2 as Ea _. subst a2. destruct (ends r1); discriminate.
Qed.

Lemma hop_done w live canc id q g sched sv sd r h t g' : (62 <= w)%N -> sound_group w g ->
  serve_group (GroupHeader id q) (view_of live g) (Send [] sched) = (sv, sd) -> possible sv sd r = true ->
  recv_stream w canc r = Arrived h t g' ->
  gh_sequence h = q /\ hop w g g'.
Proof.
  intros W S Es Po Rc. apply possible_delivered in Po. pose proof (recv_header _ _ _ _ _ _ _ _ _ _ _ Es Po Rc) as Hh.
  destruct (sound_view w live g S) as [HF SF]. pose proof Po as (P & NE & Tr).
  pose proof (group_cut w canc _ (view_of live g) sched sv sd r Hh HF SF Es P NE) as G. rewrite Rc in G.
  destruct G as (-> & _). split; [reflexivity|]. exists (GroupHeader id q), live, sched, sv, sd, r, canc, t. auto.
Qed.
