(** The viewers of a live media track. *)
From Coq Require Import NArith ZArith List Lia Bool Arith.
From Coq Require Import Init.Byte Strings.Byte.
From Coq Require Import ZifyBool ZifyNat ZifyN.
From Verif.Model Require Import Base Coding Message ErrorCode Stream Frame FrameSys TrackSys Media Publisher Transfer Net Live.
From Verif.Model Require MediaRead.
From Verif.Spec Require Import TrackSpec TransferSpec NetSpec MediaSpec LiveSpec.
From Verif.Spec Require MediaReadSpec.
From Verif.Proofs Require Import BaseP TableP TrackP TransferP RelayP NetP NetSysP NetStepP NetTopP MediaP LiveWriteP.
From Verif.Proofs Require MediaReadP LiveReadP.
Import ListNotations.
Open Scope nat_scope.

Definition ranged (gs : list (list mframe)) : Prop := Forall (Forall (in_range 62)) gs.

Lemma ranged_add gs f : ranged gs -> in_range 62 f -> ranged (add_media gs f).
Proof.
  intros R Rf. assert (F1 : Forall (in_range 62) [f]) by (constructor; [exact Rf|constructor]).
  destruct gs as [|l pre _] using rev_ind; [constructor; [exact F1|constructor]|].
  destruct (mf_key f) eqn:K.
  - rewrite add_media_key by exact K. apply Forall_app. split; [exact R|]. constructor; [exact F1|constructor].
  - rewrite add_media_delta by exact K. apply Forall_app in R. destruct R as (R1 & R2). apply Forall_app. split; [exact R1|].
    constructor; [|constructor]. apply Forall_app. split; [exact (Forall_inv R2)|exact F1].
Qed.

(** * What a copy can show *)

Lemma whole f b : prefix b (body f) -> N.of_nat (length b) = media_size f -> b = body f.
Proof.
  intros (q & E) L. assert (Lb : N.of_nat (length (body f)) = media_size f) by (unfold body, media_size, len; rewrite app_length; lia).
  assert (length q = 0) by (apply (f_equal (@length byte)) in E; rewrite app_length in E; lia).
  destruct q; [|discriminate]. rewrite app_nil_r in E. auto.
Qed.

Lemma decodes f k : in_range 62 f -> media_decode k (body f) = Some (MediaSpec.seen k f).
Proof. intros R. exact (proj2 (proj2 (header_ok f 62 R)) k (mf_data f)). Qed.

(** The complete [k]-th frame of a copy is that of the application's. *)
Lemma copy_frame h0 h k size b : sound_group 62 h -> copy (frames_of h0) (frames_of h) ->
  nth_error (frames_of h) k = Some (size, b, Some Finished) ->
  exists x, nth_error (rg_frames h0) k = Some x /\ fst x = size /\ concat (fs_chunks (snd x)) = b.
Proof.
  intros S (pre & suf & E & F & C) Hk.
  assert (P : forall k, nth_error (map seal pre) k = Some (size, b, Some Finished) ->
    exists x, nth_error (rg_frames h0) k = Some x /\ fst x = size /\ concat (fs_chunks (snd x)) = b).
  { clear -E. intros k Hk. rewrite nth_error_map in Hk. destruct (nth_error pre k) as [y|] eqn:Ey; [|discriminate].
    apply (nth_error_grow _ suf) in Ey. rewrite <- E, frames_seen, nth_error_map in Ey.
    destruct (nth_error (rg_frames h0) k) as [x|]; [|discriminate]. injection Ey as <-. exists x. split; [reflexivity|].
    cbn in Hk. unfold seal in Hk. cbn in Hk. injection Hk as <- <-. auto. }
  destruct C as [C|(sz & d & o & part & o' & suf' & -> & C & _ & _ & No)]; rewrite C in Hk; [apply P; exact Hk|].
  destruct (Nat.lt_ge_cases k (length (map seal pre))) as [L|L].
  - rewrite nth_error_app1 in Hk by exact L. apply P. exact Hk.
  - rewrite nth_error_app2 in Hk by exact L. destruct (k - length (map seal pre)) as [|[|i]]; try discriminate. injection Hk as _ _ ->. congruence.
Qed.

Lemma frame_at_frames h k f : frame_at h k = Some f ->
  exists size b, nth_error (frames_of h) k = Some (size, b, Some Finished) /\ media_decode k b = Some f.
Proof.
  unfold frame_at, payload_at. rewrite frames_seen, nth_error_map. destruct (nth_error (rg_frames h) k) as [[size st]|].
  - destruct (fs_closed st) as [[|e]|] eqn:C; try discriminate. intros D. exists size, (concat (fs_chunks st)). split; [|exact D].
    cbn. unfold seen. cbn. rewrite C. reflexivity.
  - destruct (rg_closed h) as [[|e]|]; discriminate.
Qed.

Lemma sound_at w n H i j h : ninv w n H -> nth_error (nth i (nt_groups n) []) j = Some h -> sound_group w h.
Proof. intros K E. apply (co_sound _ _ _ (ni_cont _ _ _ K) i). eapply nth_error_In. exact E. Qed.

(** A complete frame holds what was written. *)
Lemma complete w n H gs i g h k size b : ninv w n H -> weak n H gs -> ranged gs -> In g (accepted (H i)) ->
  nth_error (nth i (nt_groups n) []) (g_id g) = Some h -> nth_error (frames_of h) k = Some (size, b, Some Finished) ->
  exists gr fr, nth_error gs (N.to_nat (g_seq g)) = Some gr /\ nth_error gr k = Some fr /\ in_range 62 fr /\ b = body fr.
Proof.
  intros K (W1 & W2) R Ig Eh Eb.
  assert (B : N.of_nat (length b) = size).
  { pose proof (sound_at w n H i _ h K Eh) as S. rewrite frames_seen, nth_error_map in Eb.
    destruct (nth_error (rg_frames h) k) as [x|] eqn:Ex; [|discriminate]. cbn in Eb. unfold seen in Eb. injection Eb as <- <- C.
    apply sound_frames in S. destruct (proj1 (Forall_forall _ _) S x (nth_error_In _ _ Ex)) as (_ & S2 & _). exact (S2 C). }
  assert (X : exists j h0 x, N.of_nat j = g_seq g /\ nth_error (groups0 n) j = Some h0 /\ nth_error (rg_frames h0) k = Some x /\ fst x = size /\ concat (fs_chunks (snd x)) = b).
  { destruct i as [|i].
    - rewrite frames_seen, nth_error_map in Eb. destruct (nth_error (rg_frames h) k) as [x|] eqn:Ex; [|discriminate].
      cbn in Eb. unfold seen in Eb. injection Eb as E1 E2 _. exists (g_id g), h, x. rewrite (W2 g Ig). auto.
    - destruct (co_copy _ _ _ (ni_cont _ _ _ K) (S i) g h ltac:(lia) Ig Eh) as (g0 & h0 & I0 & Q & E0 & C & _).
      assert (Sh : sound_group 62 h).
      { pose proof (sound_at w n H (S i) _ h K Eh) as S. apply sound_frames. apply sound_frames in S. eapply Forall_impl; [|exact S].
        intros y (Y1 & Y2 & Y3 & Y4). split; [exact Y1|]. split; [exact Y2|]. auto. }
      destruct (copy_frame h0 h k size b Sh C Eb) as (x & Ex & E1 & E2). exists (g_id g0), h0, x. rewrite <- Q, (W2 g0 I0). auto. }
  destruct X as (j & h0 & x & Ej & E0 & Ex & E1 & E2). destruct (W1 j h0 k x E0 Ex) as (gr & fr & Eg & Er & Sz & Pf).
  rewrite E2 in Pf. rewrite E1 in Sz.
  assert (Rf : in_range 62 fr).
  { unfold ranged in R. rewrite Forall_forall in R. pose proof (R gr (nth_error_In _ _ Eg)) as Rg. rewrite Forall_forall in Rg. exact (Rg fr (nth_error_In _ _ Er)). }
  exists gr, fr. rewrite <- Ej, Nnat.Nat2N.id. split; [exact Eg|]. split; [exact Er|]. split; [exact Rf|]. apply whole; [exact Pf|lia].
Qed.

Lemma shows w n H gs i g h k f : ninv w n H -> weak n H gs -> ranged gs -> In g (accepted (H i)) ->
  nth_error (nth i (nt_groups n) []) (g_id g) = Some h -> frame_at h k = Some f -> is_frame gs (g_seq g, k, f).
Proof.
  intros K Wk R Ig Eh Ef. destruct (frame_at_frames h k f Ef) as (size & b & Eb & Dc).
  destruct (complete _ _ _ _ _ _ _ _ _ _ K Wk R Ig Eh Eb) as (gr & fr & Eg & Er & Rf & ->).
  rewrite (decodes fr k Rf) in Dc. injection Dc as <-. exists gr, fr. auto.
Qed.

(** * Taking frames *)

Definition has (l : list (N * nat * mframe)) (q : N) (k : nat) : Prop := recall l q k <> None.

Lemma find_none_app {A} (p : A -> bool) l m : find p (l ++ m) = match find p l with Some x => Some x | None => find p m end.
Proof. induction l as [|x l IH]; [reflexivity|]. cbn. destruct (p x); auto. Qed.

Lemma has_app l m q k : has l q k -> has (l ++ m) q k.
Proof. unfold has, recall. rewrite find_none_app. destruct (find (is_place q k) l); [auto|]. cbn. congruence. Qed.

Lemma recall_in l q k f : recall l q k = Some f -> In (q, k, f) l.
Proof.
  unfold recall. destruct (find (is_place q k) l) as [[[q' k'] f']|] eqn:E; [|discriminate]. intros [= <-].
  apply find_some in E. destruct E as (I & P). unfold is_place in P. cbn in P. apply andb_true_iff in P. destruct P as (P1 & P2).
  apply N.eqb_eq in P1. apply Nat.eqb_eq in P2. subst. exact I.
Qed.

Definition avail (n : net) (v : view) (q : N) (k : nat) : Prop := exists h f, content n v q = Some h /\ frame_at h k = Some f.

Lemma take_list_ok n v q (P : N * nat * mframe -> Prop) :
  (forall h k f, content n v q = Some h -> frame_at h k = Some f -> P (q, k, f)) ->
  forall ks l, Forall P l ->
  let l' := fold_left (fun l k =>
    match recall l q k, content n v q with
    | None, Some h => match frame_at h k with Some f => l ++ [(q, k, f)] | None => l end
    | _, _ => l
    end) ks l in
  Forall P l' /\ (forall q0 k0, has l q0 k0 -> has l' q0 k0) /\ (forall k, In k ks -> avail n v q k -> has l' q k).
Proof.
  intros HP. induction ks as [|k ks IH]; intros l Fl; cbn [fold_left]; [repeat split; auto; intros ? []|].
  set (l1 := match recall l q k, content n v q with None, Some h => match frame_at h k with Some f => l ++ [(q, k, f)] | None => l end | _, _ => l end).
  assert (A : Forall P l1 /\ (forall q0 k0, has l q0 k0 -> has l1 q0 k0) /\ (avail n v q k -> has l1 q k)).
  { unfold l1. destruct (recall l q k) as [f0|] eqn:Er.
    - split; [exact Fl|]. split; [auto|]. intros _. unfold has. congruence.
    - destruct (content n v q) as [h|] eqn:Ec.
      + destruct (frame_at h k) as [f|] eqn:Ef.
        * split; [apply Forall_app; split; [exact Fl|]; constructor; [eapply HP; eauto|constructor]|].
          split; [intros; apply has_app; assumption|]. intros _. unfold has, recall in *. rewrite find_none_app.
          destruct (find (is_place q k) l); [discriminate|]. cbn [find]. replace (is_place q k (q, k, f)) with true; [discriminate|].
          unfold is_place. cbn. rewrite N.eqb_refl, Nat.eqb_refl. reflexivity.
        * split; [exact Fl|]. split; [auto|]. intros (h' & f & Eh & Ef'). rewrite Ec in Eh. injection Eh as <-. congruence.
      + split; [exact Fl|]. split; [auto|]. intros (h' & f & Eh & Ef'). rewrite Ec in Eh. discriminate. }
  destruct A as (A1 & A2 & A3). destruct (IH l1 A1) as (B1 & B2 & B3). split; [exact B1|]. split; [auto|].
  intros k' [<-|I] Av; auto.
Qed.

Lemma take_all_ok n v (P : N * nat * mframe -> Prop) :
  (forall q h k f, content n v q = Some h -> frame_at h k = Some f -> P (q, k, f)) ->
  forall rs l, Forall P l ->
  let l' := fold_left (take n v) rs l in
  Forall P l' /\ (forall q k, has l q k -> has l' q k) /\
  (forall g k, In g rs -> k < MediaRead.rg_index g -> avail n v (MediaRead.rg_seq g) k -> has l' (MediaRead.rg_seq g) k).
Proof.
  intros HP. induction rs as [|g rs IH]; intros l Fl; cbn [fold_left]; [repeat split; auto; intros ? ? []|].
  destruct (take_list_ok n v (MediaRead.rg_seq g) P (HP (MediaRead.rg_seq g)) (seq 0 (MediaRead.rg_index g)) l Fl) as (A1 & A2 & A3).
  change (fold_left _ (seq 0 (MediaRead.rg_index g)) l) with (take n v l g) in A1, A2, A3.
  destruct (IH _ A1) as (B1 & B2 & B3). split; [exact B1|]. split; [auto|].
  intros g' k [<-|I] L Av; [|eauto]. apply B2, A3; [apply in_seq; lia|exact Av].
Qed.

(** * One viewer *)

Notation known l := (fun f => has l (MediaRead.rf_seq f) (MediaRead.rf_idx f)).

Record vinv (H : hists) (gs : list (list mframe)) (v : view) (seen : list (N * nat * mframe)) (res : list lout) : Prop := {
  vi_in : incl (vw_groups v) (nth (vw_cons v) (groups (H (vw_node v))) []);
  vi_inc : increasing (vw_groups v);
  vi_read : Forall (is_frame gs) (vw_read v);
  vi_good : LiveReadP.all_good (known (vw_read v)) (fun _ _ => False) (vw_reader v);
  vi_seen : Forall (is_frame gs) seen;
  vi_run : exists rops rtr, MediaRead.rrun MediaRead.rd_new rops = (vw_reader v, rtr) /\
     MediaReadSpec.arrivals rtr = map g_seq (vw_groups v) /\
     map (fun f => (MediaRead.rf_seq f, MediaRead.rf_idx f)) (MediaReadSpec.played rtr) = map fst seen /\
     (In MediaRead.RHang (map snd rtr) -> In LHang res) }.

Lemma is_frame_add gs f x : is_frame gs x -> is_frame (add_media gs f) x.
Proof.
  intros (g & y & Eg & Ey & Es).
  assert (M : exists g', nth_error (add_media gs f) (N.to_nat (fst (fst x))) = Some g' /\ nth_error g' (snd (fst x)) = Some y).
  { destruct gs as [|l pre _] using rev_ind; [destruct (N.to_nat (fst (fst x))); discriminate|].
    destruct (mf_key f) eqn:K.
    - rewrite add_media_key by exact K. exists g. split; [apply nth_error_grow; exact Eg|exact Ey].
    - rewrite add_media_delta by exact K. destruct (Nat.lt_ge_cases (N.to_nat (fst (fst x))) (length pre)) as [L|L].
      + rewrite nth_error_app1 in * by exact L. exists g. auto.
      + rewrite nth_error_app2 in * by exact L. destruct (N.to_nat (fst (fst x)) - length pre) as [|[|i]]; try discriminate. cbn in *.
        injection Eg as ->. eexists. split; [reflexivity|]. apply nth_error_grow. exact Ey. }
  destruct M as (g' & A & B). exists g', y. auto.
Qed.

Lemma vinv_grows H H' gs v l r : grows H H' -> vinv H gs v l r -> vinv H' gs v l r.
Proof. intros G []. constructor; auto. eapply incl_tran; [exact vi_in0|]. apply (G (vw_node v)). Qed.
Lemma vinv_res H gs v l r r' : vinv H gs v l r -> incl r r' -> vinv H gs v l r'.
Proof.
  intros [] I. constructor; auto. destruct vi_run0 as (rops & rtr & A & B & C & D). exists rops, rtr. auto 10.
Qed.
Lemma vinv_add H gs f v l r : vinv H gs v l r -> vinv H (add_media gs f) v l r.
Proof. intros []. constructor; auto; (eapply Forall_impl; [|eassumption]); intros; apply is_frame_add; assumption. Qed.

Lemma good_false kn av s : LiveReadP.all_good kn (fun _ _ => False) s -> LiveReadP.all_good kn av s.
Proof.
  intros (A & B). split.
  - intros g E f Hf. destruct (A g E f Hf) as [K|(_ & _ & [])]; left; exact K.
  - intros g E f Hf. destruct (B g E f Hf) as [K|(_ & _ & [])]; left; exact K.
Qed.

Lemma content_in n v q h : content n v q = Some h ->
  exists g, In g (vw_groups v) /\ g_seq g = q /\ nth_error (nth (vw_node v) (nt_groups n) []) (g_id g) = Some h.
Proof.
  unfold content. destruct (find _ (vw_groups v)) as [g|] eqn:E; [|discriminate]. intros Eh. apply find_some in E.
  destruct E as (I & Q). apply N.eqb_eq in Q. eauto.
Qed.

(** The view after it was given [gs]. *)
Definition with_given (v : view) (gl : list group) : view := View (vw_node v) (vw_cons v) (vw_groups v ++ gl) (vw_reader v) (vw_read v).

Lemma avail_given n v gl q k : avail n v q k -> avail n (with_given v gl) q k.
Proof.
  intros (h & f & E & Ef). exists h, f. split; [|exact Ef]. unfold content in *. cbn [with_given vw_groups vw_node].
  rewrite find_none_app. destruct (find _ (vw_groups v)); [exact E|discriminate].
Qed.

Definition out_ok (o : MediaRead.rop) (x : MediaRead.rout) (y : lout) (seen seen' : list (N * nat * mframe)) (gs : list (list mframe)) : Prop :=
  match x with
  | MediaRead.RGot f => exists mf, y = LShown (MediaRead.rf_seq f) (MediaRead.rf_idx f) mf /\ is_frame gs (MediaRead.rf_seq f, MediaRead.rf_idx f, mf)
  | _ => (forall q k f, y <> LShown q k f) /\ (x = MediaRead.RHang -> y = LHang)
  end.

Lemma perform_full w n H gs v gl o v' y seen res :
  ninv w n H -> weak n H gs -> ranged gs ->
  vinv H gs v seen res ->
  incl (vw_groups v ++ gl) (nth (vw_cons v) (groups (H (vw_node v))) []) -> increasing (vw_groups v ++ gl) ->
  LiveReadP.op_ok (avail n v) (vw_reader v) o ->
  (forall r x, MediaRead.rstep (vw_reader v) o = (r, x) -> MediaReadSpec.arrivals [(o, x)] = map g_seq gl) ->
  perform n v gl o = (v', y) ->
  let seen' := match y with LShown q k f => seen ++ [(q, k, f)] | _ => seen end in
  (forall res', incl res res' -> (y = LHang -> In LHang res') -> vinv H gs v' seen' res') /\ y <> LBad.
Proof.
  intros K Wk R V In' Inc' Op Ar P seen'. destruct V as [V1 V2 V3 V4 V5 (rops & rtr & Vr & Va & Vp & Vh)].
  unfold perform in P. fold (with_given v gl) in P. cbn [vw_reader with_given] in P.
  destruct (MediaRead.rstep (vw_reader v) o) as [r x] eqn:St.
  assert (Op' : LiveReadP.op_ok (avail n (with_given v gl)) (vw_reader v) o).
  { destruct o as [d|fuel c nx bufs]; [exact I|]. destruct Op as (O1 & O2 & O3). split; [|split].
    - intros g ts A B. apply avail_given. eauto.
    - exact O2.
    - intros i env g A B j ts Ej. apply avail_given. exact (O3 i env g A B j ts Ej). }
  destruct (LiveReadP.rstep_good (known (vw_read v)) (avail n (with_given v gl)) _ _ _ _ (good_false _ _ _ V4) Op' St) as (G & Got).
  assert (HP : forall q h k f, content n (with_given v gl) q = Some h -> frame_at h k = Some f -> is_frame gs (q, k, f)).
  { intros q h k f Ec Ef. destruct (content_in _ _ _ _ Ec) as (g & Ig & <- & Eh). cbn [with_given vw_groups vw_node] in *.
    eapply shows; eauto. apply (proj2 (proj2 (given_ok w n H (vw_node v) (vw_cons v) K))). apply In'. exact Ig. }
  destruct (take_all_ok n (with_given v gl) (is_frame gs) HP (groups_in r) (vw_read v) V3) as (T1 & T2 & T3).
  set (l' := fold_left (take n (with_given v gl)) (groups_in r) (vw_read v)) in *.
  change (vw_node (with_given v gl)) with (vw_node v) in P. change (vw_cons (with_given v gl)) with (vw_cons v) in P.
  change (vw_groups (with_given v gl)) with (vw_groups v ++ gl) in P. change (vw_read (with_given v gl)) with (vw_read v) in P. fold l' in P.
  injection P as <- <-.
  assert (Kn : forall g f, In g (groups_in r) -> has (vw_read v) (MediaRead.rf_seq f) (MediaRead.rf_idx f) \/ LiveReadP.taken_now (avail n (with_given v gl)) g f ->
    has l' (MediaRead.rf_seq f) (MediaRead.rf_idx f)).
  { intros g f Ig [Hk|(E1 & E2 & E3)]; [apply T2; exact Hk|]. rewrite E1. apply T3; assumption. }
  assert (G' : LiveReadP.all_good (known l') (fun _ _ => False) r).
  { destruct G as (Ga & Gb). split.
    - intros g E f Hf. left. apply (Kn g); [unfold groups_in; rewrite E; left; reflexivity|]. exact (Ga g E f Hf).
    - intros g E f Hf. left. apply (Kn g); [unfold groups_in; apply in_or_app; right; exact E|]. exact (Gb g E f Hf). }
  assert (O : out_ok o x (result (View (vw_node v) (vw_cons v) (vw_groups v ++ gl) r l') x) seen seen' gs).
  { destruct x as [|f| | | | | | | |]; cbn [result out_ok]; try (split; [discriminate|reflexivity || discriminate]).
    destruct (Got f eq_refl) as (g & Eg & Kg). assert (Hk : has l' (MediaRead.rf_seq f) (MediaRead.rf_idx f)).
    { apply (Kn g); [unfold groups_in; rewrite Eg; left; reflexivity|exact Kg]. }
    unfold has in Hk. cbn [vw_read]. destruct (recall l' _ _) as [mf|] eqn:Er; [|congruence]. exists mf. split; [reflexivity|].
    apply recall_in in Er. rewrite Forall_forall in T1. exact (T1 _ Er). }
  split.
  2: { intros B. destruct x as [|f| | | | | | | |]; cbn [out_ok] in O; try discriminate B. destruct O as (mf & Eq & _). rewrite Eq in B. discriminate B. }
  intros res' Ires Hg.
  constructor; cbn [vw_node vw_cons vw_groups vw_reader vw_read]; auto.
  - unfold seen'. destruct x as [|f| | | | | | | |]; cbn [out_ok] in O; try (destruct O as (O & _); destruct (result _ _); try exact V5; exfalso; eapply O; reflexivity).
    destruct O as (mf & -> & Fr). apply Forall_app. auto.
  - exists (rops ++ [o]), (rtr ++ [(o, x)]). split; [|split; [|split]].
    + rewrite MediaReadP.rrun_snoc, Vr, St. reflexivity.
    + rewrite MediaReadP.arrivals_snoc, map_app, Va, (Ar _ _ eq_refl). reflexivity.
    + rewrite MediaReadP.played_snoc, map_app, Vp. unfold seen'.
      destruct x as [|f| | | | | | | |]; cbn [out_ok] in O; try (rewrite app_nil_r; destruct O as (O & _); destruct (result _ _); try reflexivity; exfalso; eapply O; reflexivity).
      destruct O as (mf & -> & Fr). rewrite map_app. reflexivity.
    + rewrite map_app. intros Ih. apply in_app_or in Ih. destruct Ih as [Ih|[E|[]]]; [apply Ires; auto|]. cbn in E. subst x.
      apply Hg. apply O. reflexivity.
Qed.
Lemma perform_ok w n H gs v gl o v' y seen res :
  ninv w n H -> weak n H gs -> ranged gs ->
  vinv H gs v seen res ->
  incl (vw_groups v ++ gl) (nth (vw_cons v) (groups (H (vw_node v))) []) -> increasing (vw_groups v ++ gl) ->
  LiveReadP.op_ok (avail n v) (vw_reader v) o ->
  (forall r x, MediaRead.rstep (vw_reader v) o = (r, x) -> MediaReadSpec.arrivals [(o, x)] = map g_seq gl) ->
  perform n v gl o = (v', y) ->
  let seen' := match y with LShown q k f => seen ++ [(q, k, f)] | _ => seen end in
  forall res', incl res res' -> (y = LHang -> In LHang res') -> vinv H gs v' seen' res'.
Proof. intros. edestruct (perform_full w n H gs v gl o v' y seen res); eauto. Qed.

(** * A poll *)

Lemma answer_frame h k ts : answer h k = MediaRead.FFrame ts -> exists f, frame_at h k = Some f.
Proof.
  unfold answer, frame_at. destruct (payload_at h k) as [[b|]|e| |]; try discriminate. destruct (media_decode k b) as [f|]; [eauto|discriminate].
Qed.

Lemma current_some n v a : current n v = Some a -> forall g ts, MediaRead.rd_cur (vw_reader v) = Some g -> a = MediaRead.FFrame ts ->
  avail n v (MediaRead.rg_seq g) (MediaRead.rg_index g).
Proof.
  unfold current. intros E g ts Eg ->. destruct (_ <? _)%N in E; [discriminate|]. rewrite Eg in E.
  assert (A : answer_of n v (MediaRead.rg_seq g) (MediaRead.rg_index g) = MediaRead.FFrame ts).
  { destruct (MediaRead.rg_buf g), (answer_of n v (MediaRead.rg_seq g) (MediaRead.rg_index g)); congruence. }
  unfold answer_of in A. destruct (content n v (MediaRead.rg_seq g)) as [h|] eqn:Ec; [|discriminate].
  destruct (answer_frame _ _ _ A) as (f & Ef). exists h, f. auto.
Qed.

Lemma current_none n v : current n v = None ->
  (MediaRead.duration_max <? MediaRead.rd_max (vw_reader v) + MediaRead.rd_lat (vw_reader v))%N = false /\
  match MediaRead.rd_cur (vw_reader v) with Some g => MediaRead.rg_buf g = [] | None => True end.
Proof.
  unfold current. destruct (_ <? _)%N; [discriminate|]. intros E. split; [reflexivity|]. destruct (MediaRead.rd_cur (vw_reader v)); [|exact I].
  destruct (MediaRead.rg_buf _); [reflexivity|discriminate].
Qed.

Lemma bufs_ok n v order :
  let bufs := flat_map (fun i => match nth_error (MediaRead.rd_pending (vw_reader v)) i with
                                 | Some g => [(i, answers n v g)]
                                 | None => []
                                 end) (nodup Nat.eq_dec order) in
  NoDup (map fst bufs) /\
  forall i env g, In (i, env) bufs -> nth_error (MediaRead.rd_pending (vw_reader v)) i = Some g -> LiveReadP.env_ok (avail n v) g env.
Proof.
  intros bufs. split.
  - subst bufs. pose proof (NoDup_nodup Nat.eq_dec order) as ND. induction (nodup Nat.eq_dec order) as [|i l IH]; [constructor|].
    inversion ND as [|? ? NI ND']; subst. cbn [flat_map]. rewrite map_app.
    destruct (nth_error (MediaRead.rd_pending (vw_reader v)) i) as [g|]; [|exact (IH ND')]. cbn. constructor; [|exact (IH ND')].
    intros J. apply NI. apply in_map_iff in J. destruct J as ([j e] & E & J). cbn in E. subst j. apply in_flat_map in J. destruct J as (j & Ij & J).
    destruct (nth_error (MediaRead.rd_pending (vw_reader v)) j); [|destruct J]. destruct J as [J|[]]. injection J as <- _. exact Ij.
  - intros i env g J E. apply in_flat_map in J. destruct J as (j & _ & J). destruct (nth_error (MediaRead.rd_pending (vw_reader v)) j) as [g'|] eqn:Ej; [|destruct J].
    destruct J as [J|[]]. injection J as <- <-. rewrite Ej in E. injection E as ->.
    intros d ts Ed. unfold answers in Ed. destruct (content n v (MediaRead.rg_seq g)) as [h|] eqn:Ec; [|destruct d; discriminate].
    rewrite nth_error_map in Ed. destruct (nth_error (seq _ _) d) as [k|] eqn:Ek; [|discriminate]. injection Ed as Ed.
    assert (k = MediaRead.rg_index g + d) as ->.
    { pose proof (nth_error_nth _ _ 0 Ek) as E. rewrite seq_nth in E; [auto|].
      assert (N : nth_error (seq (MediaRead.rg_index g) (S (length (rg_frames h)) - MediaRead.rg_index g)) d <> None) by congruence.
      apply nth_error_Some in N. rewrite seq_length in N. exact N. }
    destruct (answer_frame _ _ _ Ed) as (f & Ef). exists h, f. auto.
Qed.

Lemma increasing_sub l G g : increasing l -> incl l G -> increasing (G ++ [g]) -> increasing (l ++ [g]).
Proof.
  intros Il Inc Ig. assert (N : Forall (fun x => g_seq x < g_seq g)%N l).
  { apply Forall_forall. intros x Ix. apply Inc in Ix. clear -Ix Ig. induction G as [|y G IH]; [destruct Ix|].
    cbn in Ig. destruct Ig as (F & Ig). destruct Ix as [->|Ix]; [|auto]. rewrite Forall_forall in F. apply F. apply in_or_app. right. left. reflexivity. }
  clear -Il N. induction l as [|y l IH]; [cbn; auto|]. cbn in *. destruct Il as (F & Il). inversion N; subst. split; [|auto].
  apply Forall_app. split; [exact F|]. constructor; auto.
Qed.

Lemma poll_full m w n H gs v fuel order n' v' y seen res : (62 <= w)%N ->
  ninv w n H -> weak n H gs -> ranged gs -> vinv H gs v seen res ->
  view_poll m w n v fuel order = (n', (v', y)) ->
  let seen' := match y with LShown q k f => seen ++ [(q, k, f)] | _ => seen end in
  exists H', ninv w n' H' /\ grows H H' /\ weak n' H' gs /\ (forall gs cur job, strong n H gs cur job -> strong n' H' gs cur job) /\
    vinv H' gs v' seen' (res ++ [y]) /\ (y = LBad -> v' = v /\ current n v = None /\ next_answer (snd (nstep m w n (NUse (vw_node v) (TNext (vw_cons v))))) = None).
Proof.
  intros W K Wk R V P seen'. unfold view_poll in P.
  assert (I1 : incl res (res ++ [y])) by (apply incl_appl, incl_refl).
  assert (I2 : y = LHang -> In LHang (res ++ [y])) by (intros ->; apply in_or_app; right; left; reflexivity).
  destruct (current n v) as [a|] eqn:Ec.
  - destruct (perform n v [] _) as [v1 y1] eqn:Pf. injection P as <- <- <-. exists H. split; [exact K|]. split; [apply grows_refl|]. split; [exact Wk|]. split; [auto|].
    edestruct (perform_full w n H gs v []) as (Q1 & Q2); [exact K|exact Wk|exact R|exact V|rewrite app_nil_r; apply V|rewrite app_nil_r; apply V| | |exact Pf|].
    + split; [exact (current_some n v a Ec)|]. split; [constructor|]. intros i env g [].
    + intros r x St. exact (LiveReadP.poll_arrivals _ _ _ _ _ _ St _).
    + split; [apply Q1; assumption|]. intros B. contradiction.
  - destruct (nstep m w n (NUse (vw_node v) (TNext (vw_cons v)))) as [n1 x] eqn:St.
    assert (O : outside (NUse (vw_node v) (TNext (vw_cons v))) = true) by (cbn; destruct (vw_node v); reflexivity).
    set (H' := exts H (no_did x)) in *.
    assert (K' : ninv w n1 H') by (eapply ninv_step; eauto; exact I).
    assert (G : grows H H') by apply grows_exts.
    assert (Wk' : weak n1 H' gs) by (eapply weak_same; eauto).
    exists H'.
    pose proof (vinv_grows _ _ _ _ _ _ G V) as V'.
    destruct (next_answer x) as [[a gl]|] eqn:Na.
    2: { injection P as <- <- <-. split; [exact K'|]. split; [exact G|]. split; [exact Wk'|]. split; [intros; eapply strong_same; eauto|].
         split; [eapply vinv_res; [exact V'|exact I1]|cbn; auto]. }
    destruct (perform n1 v gl _) as [v1 y1] eqn:Pf. injection P as <- <- <-.
    split; [exact K'|]. split; [exact G|]. split; [exact Wk'|]. split; [intros; eapply strong_same; eauto|].
    destruct (current_none n v Ec) as (Cd & Cb).
    destruct (bufs_ok n1 v order) as (B1 & B2).
    assert (Gl : incl (vw_groups v ++ gl) (nth (vw_cons v) (groups (H' (vw_node v))) []) /\ increasing (vw_groups v ++ gl) /\
                 match a with MediaRead.NGroup q => map g_seq gl = [q] | _ => gl = [] end).
    { assert (N0 : gl = [] -> match a with MediaRead.NGroup q => map g_seq gl = [q] | _ => gl = [] end ->
        incl (vw_groups v ++ gl) (nth (vw_cons v) (groups (H' (vw_node v))) []) /\ increasing (vw_groups v ++ gl) /\
        match a with MediaRead.NGroup q => map g_seq gl = [q] | _ => gl = [] end)
        by (intros -> Q; rewrite app_nil_r; split; [apply V'|]; split; [apply V|exact Q]).
      cbn [nstep] in St. destruct (Nat.ltb (vw_node v) (length (nt_tracks n)) && may_use n (vw_node v) (TNext (vw_cons v))) eqn:B.
      2: { injection St as _ <-. discriminate Na. }
      apply andb_true_iff in B. destruct B as (L & _). apply Nat.ltb_lt in L.
      destruct (nth_error (nt_tracks n) (vw_node v)) as [t|] eqn:Et; [|apply nth_error_None in Et; lia].
      destruct (at_track m (vw_node v) (TNext (vw_cons v)) n) as [s1 z] eqn:A.
      destruct (at_track_eq _ _ _ _ _ _ _ Et A) as (t' & Tt & ->). injection St as <- <-.
      destruct z as [| | | | |[[g|]|e| |]|]; cbn in Na; try discriminate Na; injection Na as <- <-; try (apply N0; reflexivity). clear N0.
      assert (Eh : H' (vw_node v) = H (vw_node v) ++ [(TNext (vw_cons v), TGot (AOk (Some g)))]).
      { unfold H'. cbn [no_did exts fold_left fst snd]. apply ext_same. }
      assert (Lc : vw_cons v < length (groups (H (vw_node v)))).
      { pose proof (tk_inv _ _ (ni_tracks _ _ _ K) _ t Et) as Ti. pose proof (ti_readers _ _ Ti) as F. apply Forall2_length in F. rewrite <- F.
        cbn [tstep] in Tt. destruct (get (ts_cons t) (vw_cons v)) eqn:Gc; [|discriminate]. eapply get_lt. exact Gc. }
      assert (Eg : nth (vw_cons v) (groups (H' (vw_node v))) [] = nth (vw_cons v) (groups (H (vw_node v))) [] ++ [g]).
      { rewrite Eh, groups_snoc. cbn [twatch]. erewrite nth_error_nth; [reflexivity|]. apply nth_error_set_eq. exact Lc. }
      pose proof (proj1 (proj2 (given_ok w _ H' (vw_node v) (vw_cons v) K'))) as Ig. rewrite Eg in Ig. rewrite Eg.
      split; [|split].
      - apply incl_app; [apply incl_appl; apply V|]. apply incl_appr, incl_refl.
      - eapply increasing_sub; [apply V|apply V|exact Ig].
      - reflexivity. }
    destruct Gl as (Gl1 & Gl2 & Gl3).
    edestruct (perform_full w n1 H' gs v gl) as (Q1 & Q2); [exact K'|exact Wk'|exact R|exact V'|exact Gl1|exact Gl2| | |exact Pf|].
    + split; [discriminate|]. split; [exact B1|exact B2].
    + intros r z Sr. rewrite (LiveReadP.idle_arrivals _ _ _ _ _ _ _ Cd Cb Sr). destruct a; [symmetry; exact Gl3| | |]; rewrite Gl3; reflexivity.
    + split; [apply Q1; assumption|]. intros B. contradiction.
Qed.
Lemma poll_ok m w n H gs v fuel order n' v' y seen res : (62 <= w)%N ->
  ninv w n H -> weak n H gs -> ranged gs -> vinv H gs v seen res ->
  view_poll m w n v fuel order = (n', (v', y)) ->
  let seen' := match y with LShown q k f => seen ++ [(q, k, f)] | _ => seen end in
  exists H', ninv w n' H' /\ grows H H' /\ weak n' H' gs /\ (forall gs cur job, strong n H gs cur job -> strong n' H' gs cur job) /\
    vinv H' gs v' seen' (res ++ [y]).
Proof. intros. edestruct (poll_full m w n H gs v fuel order n' v' y seen res) as (H' & A & B & C & D & E & _); eauto 10. Qed.

(** * Everything *)

Record linv (w : N) (s : live) (tr : list levent) (H : hists) : Prop := {
  li_net : ninv w (lv_net s) H;
  li_weak : weak (lv_net s) H (media_groups (lwritten tr));
  li_strong : lv_gone s = false -> strong (lv_net s) H (media_groups (lwritten tr)) (lv_cur s) (lv_job s);
  li_gone : lv_gone s = true -> lv_job s = None;
  li_ranged : ranged (media_groups (lwritten tr));
  li_views : forall i v, nth_error (lv_views s) i = Some v -> vinv H (media_groups (lwritten tr)) v (shown i tr) (results i tr);
  li_none : forall i, length (lv_views s) <= i -> shown i tr = [] }.

Lemma linv_new w : linv w live_new [] (fun _ => []).
Proof.
  constructor; cbn; try discriminate.
  - apply ninv_new.
  - split; [|intros g []]. intros j h k x Hj. destruct j; discriminate.
  - intros _. split; [reflexivity|]. split; [reflexivity|]. auto.
  - constructor.
  - intros [|i] v E; discriminate.
  - reflexivity.
Qed.

Lemma lwritten_snoc tr e : lwritten (tr ++ [e]) = lwritten tr ++ lwritten [e].
Proof. apply flat_map_app. Qed.
Lemma shown_snoc i tr e : shown i (tr ++ [e]) = shown i tr ++ shown i [e].
Proof. apply flat_map_app. Qed.
Lemma results_snoc i tr e : results i (tr ++ [e]) = results i tr ++ results i [e].
Proof. apply flat_map_app. Qed.

Lemma allowed_outside s o : Live.allowed s o = true -> outside o = true /\ modest o.
Proof.
  destruct o as [|j o|i o|i p id prio|l|l newer lost|l|l k lv canc sched r|l clean|l]; cbn; try discriminate; auto.
  intros A. split; [|exact I]. destruct i as [|i]; [|reflexivity]. destruct o; cbn in *; auto.
Qed.

(** An event that is no poll: what the viewers saw stays. *)
Definition no_poll (e : levent) : Prop := match e with (LPoll _ _ _, _) => False | _ => True end.
Lemma no_poll_shown e i : no_poll e -> shown i [e] = [] /\ results i [e] = [].
Proof. destruct e as [[] x]; cbn; tauto. Qed.

Lemma linv_other w s tr H s' H' e : linv w s tr H -> grows H H' -> no_poll e ->
  lwritten [e] = [] -> ninv w (lv_net s') H' -> weak (lv_net s') H' (media_groups (lwritten tr)) ->
  (lv_gone s' = false -> strong (lv_net s') H' (media_groups (lwritten tr)) (lv_cur s') (lv_job s')) ->
  (lv_gone s' = true -> lv_job s' = None) ->
  (forall i v, nth_error (lv_views s') i = Some v -> vinv H' (media_groups (lwritten tr)) v (shown i tr) (results i tr)) ->
  length (lv_views s) <= length (lv_views s') -> linv w s' (tr ++ [e]) H'.
Proof.
  intros L G NP Lw K Wk St Go Vs Ln. destruct L as [L1 L2 L3 L4 L5 L6 L7].
  constructor; rewrite ?lwritten_snoc, ?Lw, ?app_nil_r; auto.
  - intros i v E. destruct (no_poll_shown e i NP) as (E1 & E2). rewrite shown_snoc, results_snoc, E1, E2, !app_nil_r. exact (Vs i v E).
  - intros i Li. destruct (no_poll_shown e i NP) as (E1 & _). rewrite shown_snoc, E1, app_nil_r. apply L7. lia.
Qed.

Lemma linv_same w s tr H s' H' e : linv w s tr H -> grows H H' -> no_poll e ->
  lwritten [e] = [] -> ninv w (lv_net s') H' -> weak (lv_net s') H' (media_groups (lwritten tr)) ->
  (lv_gone s' = false -> strong (lv_net s') H' (media_groups (lwritten tr)) (lv_cur s') (lv_job s')) ->
  (lv_gone s' = true -> lv_job s' = None) -> lv_views s' = lv_views s -> linv w s' (tr ++ [e]) H'.
Proof.
  intros L G NP Lw K Wk St Go Vs. eapply linv_other; eauto; [|rewrite Vs; reflexivity].
  intros i v E. rewrite Vs in E. eapply vinv_grows; [exact G|]. exact (li_views _ _ _ _ L i v E).
Qed.

Lemma linv_idle w s tr H e : linv w s tr H -> no_poll e -> lwritten [e] = [] -> linv w s (tr ++ [e]) H.
Proof. intros L NP Lw. eapply linv_same; eauto; try apply grows_refl; apply L. Qed.

Lemma linv_gone m w s tr H n H' e : (62 <= w)%N -> linv w s tr H -> grows H H' -> ninv w n H' -> weak n H' (media_groups (lwritten tr)) ->
  no_poll e -> lwritten [e] = [] -> exists H2, linv w (gone m w s n) (tr ++ [e]) H2.
Proof.
  intros W L G K Wk NP Lw. destruct (gone_ok m w s n H' _ W K Wk) as (H2 & A & B & C & D & E & F).
  exists H2. eapply linv_same; eauto; [eapply grows_trans; eauto|]. rewrite D. discriminate.
Qed.

Lemma linv_step m w s o s' x tr H : (62 <= w)%N -> lmodest o -> linv w s tr H -> lstep m w s o = (s', x) ->
  exists H', linv w s' (tr ++ [(o, x)]) H'.
Proof.
  intros W M L St. pose proof L as [L1 L2 L3 L4 L5 L6 L7]. destruct o as [f| | |o|i p|v d|v fuel order]; cbn [lstep] in St.
  - (* LWrite *)
    destruct (lv_job s) as [jb|] eqn:Ej. { injection St as <- <-. exists H. apply linv_idle; [exact L|exact I|reflexivity]. }
    destruct (lv_gone s) eqn:Eg. { injection St as <- <-. exists H. apply linv_idle; [exact L|exact I|reflexivity]. }
    cbn in M. destruct (header_ok f 62 M) as (Hd & _). rewrite Hd in St. injection St as <- <-.
    destruct (L3 eq_refl) as (SA & SS). rewrite ?Ej in SS. cbn [state] in SS. destruct SS as (P & SS).
    exists H. constructor; rewrite ?lwritten_snoc, ?media_groups_snoc; cbn [with_job lv_net lv_gone lv_cur lv_job lv_views]; auto.
    + change (lwritten [(LWrite f, LUnit)]) with [f]. rewrite media_groups_snoc. destruct L2 as (A & B). split; [apply enc_add; exact A|exact B].
    + intros _. change (lwritten [(LWrite f, LUnit)]) with [f]. rewrite media_groups_snoc. split; [exact SA|].
      destruct (lv_cur s) as [j|].
      * destruct SS as (a & h & pre & g & Eh & Egs & Lp & -> & Lf). rewrite Egs. destruct (mf_key f) eqn:Kf; cbn [state].
        -- rewrite add_media_key by exact Kf. split; [exact P|]. split; [exact M|]. exists a, h, (pre ++ [g]). split; [exact Eh|]. split; [reflexivity|].
           split; [rewrite Eh, !app_length; cbn; lia|reflexivity].
        -- rewrite add_media_delta by exact Kf. split; [exact P|]. split; [exact M|]. exists a, h, pre, g. auto.
      * destruct SS as (Egs & Eh). rewrite Egs, Eh. cbn [state]. split; [exact P|]. split; [exact M|]. split; [reflexivity|]. exists []. auto.
    + rewrite Eg. discriminate.
    + change (lwritten [(LWrite f, LUnit)]) with [f]. rewrite media_groups_snoc. apply ranged_add; assumption.
    + intros i v E. change (lwritten [(LWrite f, LUnit)]) with [f]. rewrite media_groups_snoc, shown_snoc, results_snoc. cbn [shown results flat_map]. rewrite !app_nil_r.
      apply vinv_add. exact (L6 i v E).
    + intros i Li. rewrite shown_snoc. cbn. rewrite app_nil_r. auto.
  - (* LStep *)
    destruct (lv_job s) as [[j f]|] eqn:Ej. 2: { injection St as <- <-. exists H. apply linv_idle; [exact L|exact I|reflexivity]. }
    assert (Eg : lv_gone s = false). { destruct (lv_gone s) eqn:Eg; [|reflexivity]. specialize (L4 eq_refl). congruence. }
    specialize (L3 Eg).
    destruct (nrun m w (lv_net s) (section (lv_net s) (lv_cur s) j f)) as [n ntr] eqn:R.
    destruct (section_ok m w _ H _ _ _ _ _ _ W L1 L2 L3 R) as (H' & A & B & C & D).
    destruct (forallb (fun e => fine (snd e)) ntr).
    + destruct (after (lv_net s) (lv_cur s) j f) as [cur job]. injection St as <- <-. cbn [fst snd] in D.
      exists H'. eapply linv_same; eauto; cbn [with_job lv_net lv_gone lv_cur lv_job lv_views]; auto; try exact I. rewrite Eg. discriminate.
    + injection St as <- <-. eapply linv_gone; eauto; exact I.
  - (* LDrop *)
    destruct (lv_job s) as [jb|] eqn:Ej. { injection St as <- <-. exists H. apply linv_idle; [exact L|exact I|reflexivity]. }
    destruct (lv_gone s) eqn:Eg. { injection St as <- <-. exists H. apply linv_idle; [exact L|exact I|reflexivity]. }
    injection St as <- <-. eapply linv_gone; eauto; try exact I; apply grows_refl.
  - (* LNet *)
    destruct (Live.allowed s o) eqn:Al. 2: { injection St as <- <-. exists H. apply linv_idle; [exact L|exact I|reflexivity]. }
    destruct (allowed_outside s o Al) as (O & Mo). destruct (nstep m w (lv_net s) o) as [n y] eqn:Sn. injection St as <- <-.
    exists (exts H (no_did y)). eapply linv_same; eauto; cbn [with_net fst lv_net lv_gone lv_cur lv_job lv_views]; auto;
      try apply grows_exts; try exact I; try (eapply ninv_step; eauto; fail); try (eapply weak_same; eauto; fail). intros G. eapply strong_same; eauto.
  - (* LView *)
    destruct (nth_error (nt_tracks (lv_net s)) i) as [t|] eqn:Et. 2: { injection St as <- <-. exists H. apply linv_idle; [exact L|exact I|reflexivity]. }
    destruct (nstep m w (lv_net s) (NUse i (TConsume p))) as [n y] eqn:Sn.
    assert (O : outside (NUse i (TConsume p)) = true) by (destruct i; reflexivity).
    assert (K : ninv w n (exts H (no_did y))) by (eapply ninv_step; eauto; exact I).
    assert (Wk : weak n (exts H (no_did y)) (media_groups (lwritten tr))) by (eapply weak_same; eauto).
    assert (Sg : lv_gone s = false -> strong n (exts H (no_did y)) (media_groups (lwritten tr)) (lv_cur s) (lv_job s)) by (intros G; eapply strong_same; eauto).
    assert (Bad : (with_net s n, LBad) = (s', x) -> exists H', linv w s' (tr ++ [(LView i p, x)]) H').
    { intros E. injection E as <- <-. exists (exts H (no_did y)). eapply linv_same; eauto; cbn; auto. apply grows_exts. }
    destruct (no_did y) as [|[i0 [o0 x0]] did] eqn:Ed; [exact (Bad St)|]. destruct x0; try exact (Bad St). destruct did; [|exact (Bad St)].
    rewrite <- Ed in *. injection St as <- <-. exists (exts H (no_did y)).
    eapply linv_other; eauto; cbn [with_views lv_net lv_gone lv_cur lv_job lv_views]; auto; try apply grows_exts; try exact I.
    + intros k v E. destruct (Nat.lt_ge_cases k (length (lv_views s))) as [Lk|Lk].
      * rewrite nth_error_app1 in E by exact Lk. eapply vinv_grows; [apply grows_exts|]. exact (L6 k v E).
      * rewrite nth_error_app2 in E by exact Lk. destruct (k - length (lv_views s)) as [|[|d]] eqn:Ek; try discriminate. injection E as <-.
        rewrite (L7 k Lk). constructor; cbn.
        -- intros ? [].
        -- exact I.
        -- constructor.
        -- split; cbn; [discriminate|intros ? []].
        -- constructor.
        -- exists [], []. cbn. tauto.
    + rewrite app_length. lia.
  - (* LLatency *)
    destruct (nth_error (lv_views s) v) as [vw|] eqn:Ev. 2: { injection St as <- <-. exists H. apply linv_idle; [exact L|exact I|reflexivity]. }
    destruct (perform (lv_net s) vw [] (MediaRead.RLatency d)) as [vw' y] eqn:Pf. injection St as <- <-.
    pose proof (L6 v vw Ev) as V.
    assert (V' : vinv H (media_groups (lwritten tr)) vw' (shown v tr) (results v tr)).
    { assert (y = LUnit) as -> by (unfold perform in Pf; cbn in Pf; injection Pf as _ <-; reflexivity).
      change (shown v tr) with (match LUnit with LShown q k f => shown v tr ++ [(q, k, f)] | _ => shown v tr end).
      eapply (perform_ok w (lv_net s) H _ vw []); eauto; rewrite ?app_nil_r; try apply V; try exact I; try apply incl_refl; try discriminate.
      intros r z Sr. cbn in Sr. injection Sr as _ <-. reflexivity. }
    exists H. eapply linv_other; eauto; cbn [with_views lv_net lv_gone lv_cur lv_job lv_views]; auto; try apply grows_refl; try exact I.
    + intros k u E. destruct (Nat.eq_dec k v) as [->|N].
      * rewrite nth_error_set_eq in E by (apply nth_error_Some; congruence). injection E as <-. exact V'.
      * rewrite nth_error_set_ne in E by congruence. exact (L6 k u E).
    + rewrite set_nth_length. reflexivity.
  - (* LPoll *)
    destruct (nth_error (lv_views s) v) as [vw|] eqn:Ev.
    2: { injection St as <- <-. exists H. constructor; rewrite ?lwritten_snoc; cbn [lwritten flat_map]; rewrite ?app_nil_r; auto.
         - intros k u E. rewrite shown_snoc, results_snoc. cbn. destruct (Nat.eqb_spec k v) as [->|N]; [congruence|]. rewrite !app_nil_r. exact (L6 k u E).
         - intros k Lk. rewrite shown_snoc. cbn. rewrite app_nil_r. auto. }
    destruct (view_poll m w (lv_net s) vw fuel order) as [n [vw' y]] eqn:Vp. injection St as <- <-.
    destruct (poll_ok m w _ H _ vw _ _ _ _ _ _ _ W L1 L2 L5 (L6 v vw Ev) Vp) as (H' & A & B & C & D & E).
    assert (Lv : v < length (lv_views s)) by (apply nth_error_Some; congruence).
    exists H'. constructor; rewrite ?lwritten_snoc; cbn [lwritten flat_map with_views lv_net lv_gone lv_cur lv_job lv_views]; rewrite ?app_nil_r; auto.
    + intros k u Ek. rewrite shown_snoc, results_snoc. destruct (Nat.eq_dec k v) as [->|N].
      * rewrite nth_error_set_eq in Ek by exact Lv. injection Ek as <-.
        cbn [shown results flat_map]. rewrite Nat.eqb_refl. cbn [app]. destruct y; cbn [app]; rewrite ?app_nil_r; exact E.
      * rewrite nth_error_set_ne in Ek by congruence. cbn [shown results flat_map]. destruct (Nat.eqb_spec k v); [congruence|].
        replace (match y with LShown _ _ _ => [] | _ => [] end) with (@nil (BinNums.N * nat * mframe)) by (destruct y; reflexivity).
        cbn [app]. rewrite !app_nil_r. eapply vinv_grows; [exact B|]. exact (L6 k u Ek).
    + intros k Lk. rewrite set_nth_length in Lk. rewrite shown_snoc, (L7 k Lk). cbn. destruct y; try reflexivity. destruct (Nat.eqb_spec k v); [lia|reflexivity].
Qed.

Lemma lrun_snoc m w ops o : forall s, lrun m w s (ops ++ [o]) =
  let (s1, tr) := lrun m w s ops in let (s2, x) := lstep m w s1 o in (s2, tr ++ [(o, x)]).
Proof.
  induction ops as [|p ops IH]; intros s; cbn [app lrun].
  - destruct (lstep m w s o). reflexivity.
  - destruct (lstep m w s p) as [s1 x]. rewrite IH. destruct (lrun m w s1 ops) as [s2 tr]. destruct (lstep m w s2 o). reflexivity.
Qed.

Lemma linv_run m w ops : (62 <= w)%N -> Forall lmodest ops ->
  exists H, linv w (fst (lrun m w live_new ops)) (snd (lrun m w live_new ops)) H.
Proof.
  intros W. induction ops as [|o ops IH] using rev_ind; intros M; [exists (fun _ => []); apply linv_new|].
  apply Forall_app in M. destruct M as (M1 & M2). destruct (IH M1) as (H & L). rewrite lrun_snoc.
  destruct (lrun m w live_new ops) as [s tr]. destruct (lstep m w s o) as [s' x] eqn:St. cbn [fst snd] in *.
  eapply linv_step; eauto. exact (Forall_inv M2).
Qed.

Lemma views_exist m w ops v : (62 <= w)%N -> Forall lmodest ops ->
  shown v (snd (lrun m w live_new ops)) = [] \/
  exists H vw, nth_error (lv_views (fst (lrun m w live_new ops))) v = Some vw /\
    vinv H (media_groups (lwritten (snd (lrun m w live_new ops)))) vw (shown v (snd (lrun m w live_new ops))) (results v (snd (lrun m w live_new ops))).
Proof.
  intros W M. destruct (linv_run m w ops W M) as (H & L).
  destruct (nth_error (lv_views (fst (lrun m w live_new ops))) v) as [vw|] eqn:E.
  - right. exists H, vw. split; [reflexivity|]. exact (li_views _ _ _ _ L v vw E).
  - left. apply (li_none _ _ _ _ L). apply nth_error_None. exact E.
Qed.

Lemma shown_frames m w ops v : (62 <= w)%N -> Forall lmodest ops ->
  let tr := snd (lrun m w live_new ops) in Forall (is_frame (media_groups (lwritten tr))) (shown v tr).
Proof.
  intros W M tr. destruct (views_exist m w ops v W M) as [E|(H & vw & E & V)]; [unfold tr; rewrite E; constructor|exact (vi_seen _ _ _ _ _ V)].
Qed.

Lemma increasing_seqs_map l : increasing l -> MediaReadSpec.increasing_seqs (map g_seq l).
Proof.
  induction l as [|g l IH]; [cbn; auto|]. intros (F & I). cbn. split; [|auto]. intros b Ib. apply in_map_iff in Ib. destruct Ib as (h & <- & Ih).
  rewrite Forall_forall in F. exact (F h Ih).
Qed.

Lemma order_places l : MediaReadSpec.in_playback_order l -> LiveSpec.in_order (map (fun f => (MediaRead.rf_seq f, MediaRead.rf_idx f)) l).
Proof.
  intros (H0 & P). destruct l as [|a l]; [exact I|]. cbn [map LiveSpec.in_order snd]. split; [exact H0|]. clear H0. revert a P.
  induction l as [|b l IH]; intros a P; [exact I|]. cbn [map in_order_from]. destruct P as (F & P). split; [exact F|]. apply IH. exact P.
Qed.

Lemma in_removelast {A} (x : A) l : In x (removelast l) -> In x l.
Proof.
  induction l as [|y l IH]; [intros []|]. cbn. destruct l; [intros []|]. intros [->|I]; [left; reflexivity|right; auto].
Qed.

Lemma shown_order m w ops v : (62 <= w)%N -> Forall lmodest ops ->
  let tr := snd (lrun m w live_new ops) in ~ In LHang (results v tr) -> LiveSpec.in_order (map fst (shown v tr)).
Proof.
  intros W M tr NH. destruct (views_exist m w ops v W M) as [E|(H & vw & E & V)]; [unfold tr; rewrite E; exact I|].
  fold tr in V. destruct (vi_run _ _ _ _ _ V) as (rops & rtr & R & A & P & Hg). rewrite <- P. apply order_places.
  eapply MediaReadP.playback_order; [exact R| |].
  - rewrite A. apply increasing_seqs_map. exact (vi_inc _ _ _ _ _ V).
  - intros J. apply NH, Hg. apply in_map_iff in J. destruct J as (e & <- & J). apply in_map. apply in_removelast. exact J.
Qed.
