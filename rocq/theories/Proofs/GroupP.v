From Coq Require Import NArith ZArith List Lia Bool.
From Coq Require Import Init.Byte Strings.Byte.
From Coq Require Import ZifyBool ZifyNat ZifyN.
From Verif.Model Require Import Base ErrorCode Stream Frame FrameSys GroupSys.
From Verif.Spec Require Import FrameSpec GroupSpec.
From Verif.Proofs Require Import BaseP TableP FrameP.
Import ListNotations.
Open Scope nat_scope.

(** * Frames inside the group *)
Definition fle (a b : fsys) : Prop :=
  (exists more, fs_chunks (sy_state b) = fs_chunks (sy_state a) ++ more /\ (fs_closed (sy_state a) <> None -> more = [])) /\
  (fs_closed (sy_state a) <> None -> fs_closed (sy_state b) <> None).
Definition handles_ok (a : fsys) : Prop :=
  forall c i, get (sy_cons a) c = Some i -> i <= length (fs_chunks (sy_state a)).

Lemma fle_state a b : sy_state a = sy_state b -> fle a b.
Proof. intros E. rewrite <- (app_nil_r (fs_chunks (sy_state a))) || idtac. split; rewrite E; auto. exists []. rewrite app_nil_r. auto. Qed.
Lemma fle_refl a : fle a a.
Proof. apply fle_state. auto. Qed.
Lemma fle_trans a b c : fle a b -> fle b c -> fle a c.
Proof.
  intros [(m & Hm & Hm') H1] [(n & Hn & Hn') H2]. split; auto.
  exists (m ++ n). rewrite Hn, Hm, app_assoc. split; auto.
  intros C. rewrite Hm', Hn'; auto.
Qed.

Lemma fstep_state w s o s' x : fstep w s o = (s', x) ->
  sy_state s' = sy_state s \/
  (exists c, fs_closed (sy_state s) = None /\ sy_state s' = FrameState (fs_chunks (sy_state s) ++ [c]) None) \/
  (exists v, sy_state s' = FrameState (fs_chunks (sy_state s)) (Some v)).
Proof.
  intros H. unfold fstep in H.
  destruct o; cbn in H;
  repeat match type of H with
  | context [get ?t ?h] => destruct (get t h) eqn:?
  | context [sy_guards s] => destruct (sy_guards s) eqn:?
  end;
  unfold frame_write, frame_finish, frame_abort in H;
  try (injection H as <- <-; auto; fail);
  try (destruct (N.leb _ _)); try (destruct (N.eqb _ _));
  try destruct (frame_read _ _ _); try destruct (frame_read_all _ _ _) as [[]|];
  try (injection H as <- <-; auto; fail).
  - destruct (fs_closed (sy_state s)) eqn:C; injection H as <- <-; auto.
    right; left. exists c. auto.
  - injection H as <- <-. right; right. exists Finished. auto.
  - injection H as <- <-. right; right. exists (Failed e). auto.
Qed.

Lemma fstep_fle w s o s' x : fstep w s o = (s', x) -> fle s s'.
Proof.
  intros H. destruct (fstep_state _ _ _ _ _ H) as [E|[(c & C & E)|(v & E)]].
  - apply fle_state; auto.
  - split; rewrite E; cbn; [|congruence]. exists [c]. split; auto. congruence.
  - split; rewrite E; cbn; [|congruence]. exists []. rewrite app_nil_r. auto.
Qed.

Lemma fstep_handles w s o s' x : handles_ok s -> fstep w s o = (s', x) -> handles_ok s'.
Proof.
  intros Hh H. pose proof (fstep_fle _ _ _ _ _ H) as [(m & Hm & _) _].
  assert (G : length (fs_chunks (sy_state s)) <= length (fs_chunks (sy_state s'))) by (rewrite Hm, app_length; lia).
  intros c i Hc.
  assert (Same : sy_cons s' = sy_cons s -> i <= length (fs_chunks (sy_state s'))).
  { intros E. rewrite E in Hc. apply Hh in Hc. lia. }
  unfold fstep in H. destruct o as [p d|p|p e|p|p|p| |p|d|d|d|d].
  - apply Same. destruct (get (sy_prods s) p); [|injection H as <- <-; auto].
    destruct (frame_write _ _ _ _ _) as [? []]; injection H as <- <-; auto.
  - apply Same. destruct (get (sy_prods s) p); [|injection H as <- <-; auto].
    destruct (frame_finish _ _ _ _); injection H as <- <-; auto.
  - apply Same. destruct (get (sy_prods s) p); injection H as <- <-; auto.
  - apply Same. destruct (get (sy_prods s) p); injection H as <- <-; auto.
  - apply Same. destruct (get (sy_prods s) p); injection H as <- <-; auto.
  - apply Same. destruct (get (sy_prods s) p); injection H as <- <-; auto.
  - apply Same. destruct (sy_guards s); injection H as <- <-; auto.
  - destruct (get (sy_prods s) p); injection H as <- <-; [|apply Same; auto].
    cbn in Hc. rewrite get_app in Hc. destruct (Nat.eqb _ _); [injection Hc as <-; lia|]. apply Hh in Hc. auto.
  - destruct (get (sy_cons s) d) as [j|] eqn:E; [|injection H as <- <-; apply Same; auto].
    destruct (frame_read _ _ _) as [a k] eqn:R. injection H as <- <-. cbn in *.
    destruct (Nat.eq_dec d c) as [->|N].
    + erewrite get_set_eq in Hc by eauto. injection Hc as <-. unfold frame_read in R.
      destruct (nth_error (fs_chunks (sy_state s)) j) eqn:B; injection R as _ <-.
      * assert (j < length (fs_chunks (sy_state s))) by (apply nth_error_Some; congruence). lia.
      * apply Hh in E. auto.
    + rewrite get_set_ne in Hc by auto. apply Hh in Hc. auto.
  - destruct (get (sy_cons s) d) as [j|] eqn:E; [|injection H as <- <-; apply Same; auto].
    destruct (frame_read_all _ _ _) as [[a k]|] eqn:R; [|injection H as <- <-; apply Same; auto].
    injection H as <- <-. cbn in *.
    destruct (Nat.eq_dec d c) as [->|N].
    + erewrite get_set_eq in Hc by eauto. injection Hc as <-. unfold frame_read_all in R. apply Hh in E.
      destruct (fs_closed (sy_state s)) as [[|]|]; [destruct (Nat.leb _ _); [|discriminate]| |];
        injection R as _ <-; auto.
    + rewrite get_set_ne in Hc by auto. apply Hh in Hc. auto.
  - destruct (get (sy_cons s) d) as [j|] eqn:E; injection H as <- <-; [|apply Same; auto].
    cbn in Hc. rewrite get_app in Hc. destruct (Nat.eqb _ _); [injection Hc as <-; apply Hh in E; auto|]. apply Hh in Hc. auto.
  - destruct (get (sy_cons s) d) as [j|] eqn:E; injection H as <- <-; [|apply Same; auto].
    cbn in Hc. destruct (Nat.eq_dec d c) as [->|N].
    + erewrite get_set_eq in Hc by eauto. discriminate.
    + rewrite get_set_ne in Hc by auto. apply Hh in Hc. auto.
Qed.

(** * Heaps *)
Definition hle (h k : list fsys) : Prop :=
  forall f a, nth_error h f = Some a -> exists b, nth_error k f = Some b /\ fle a b.
Definition heap_ok (h : list fsys) : Prop := forall f a, nth_error h f = Some a -> handles_ok a.
Definition entry_ok (h : list fsys) (e : entry) : Prop :=
  exists a, nth_error h (fst e) = Some a /\ snd e <= length (fs_chunks (sy_state a)).

Lemma hle_refl h : hle h h.
Proof. intros f a H. exists a. split; auto. apply fle_refl. Qed.
Lemma hle_set h f a b : nth_error h f = Some a -> fle a b -> hle h (set_nth f b h).
Proof.
  intros H L g c Hc. destruct (Nat.eq_dec f g) as [->|N].
  - rewrite nth_error_set_eq by (apply nth_error_Some; congruence). exists b. split; auto. congruence.
  - rewrite nth_error_set_ne by auto. exists c. split; auto. apply fle_refl.
Qed.
Lemma hle_app h x : hle h (h ++ x).
Proof.
  intros f a H. exists a. split; [|apply fle_refl]. rewrite nth_error_app1; auto. apply nth_error_Some. congruence.
Qed.
Lemma entry_ok_le h k e : hle h k -> entry_ok h e -> entry_ok k e.
Proof.
  intros L (a & Ha & Hi). destruct (L _ _ Ha) as (b & Hb & ((m & Hm & _) & _)).
  exists b. split; auto. rewrite Hm, app_length. lia.
Qed.
Lemma item_is_le h k x e : hle h k -> item_is h x e -> item_is k x e.
Proof.
  intros L. destruct x as [e'|b]; cbn; auto. unfold payload, frame_closed.
  intros [-> C]. destruct (nth_error h (fst e)) as [a|] eqn:E; [|congruence].
  destruct (L _ _ E) as (a' & -> & ((m & Hm & Hm') & Hc)). rewrite Hm, Hm', app_nil_r by auto. auto.
Qed.
Lemma heap_ok_set h f b : heap_ok h -> handles_ok b -> heap_ok (set_nth f b h).
Proof.
  intros H Hb g c Hc. destruct (Nat.eq_dec f g) as [->|N].
  - assert (g < length h) by (rewrite <- (set_nth_length g b h); apply nth_error_Some; congruence).
    rewrite nth_error_set_eq in Hc by auto. injection Hc as <-. exact Hb.
  - rewrite nth_error_set_ne in Hc by auto. eauto.
Qed.

(** * Readers *)
Definition greader_ok (h : list fsys) (frames : list entry) (x : option gcons) (o : list item) : Prop :=
  length o <= length frames /\ Forall2 (item_is h) o (firstn (length o) frames) /\
  forall g, x = Some g ->
    match gc_active g with
    | None => gc_index g = length o
    | Some e => gc_index g = S (length o) /\ nth_error frames (length o) = Some e
    end.

Record ginv (s : gsys) (tr : list gevent) : Prop := {
  gi_frames : gs_frames s = appended tr;
  gi_closed : gs_closed s = gverdict tr;
  gi_entries : Forall (entry_ok (gs_heap s)) (gs_frames s);
  gi_heap : heap_ok (gs_heap s);
  gi_readers : Forall2 (greader_ok (gs_heap s) (gs_frames s)) (gs_cons s) (obtained tr) }.

Lemma appended_snoc tr e : appended (tr ++ [e]) = appended tr ++ append_of e.
Proof. unfold appended. rewrite flat_map_app. cbn. rewrite app_nil_r. auto. Qed.
Lemma obtained_snoc tr e : obtained (tr ++ [e]) = gwatch (obtained tr) e.
Proof. unfold obtained. rewrite fold_left_app. auto. Qed.
Lemma gverdict_snoc tr e : gverdict (tr ++ [e]) = gclosing (gverdict tr) e.
Proof. unfold gverdict. rewrite fold_left_app. auto. Qed.

Lemma greader_ok_le h k frames more x o : hle h k ->
  greader_ok h frames x o -> greader_ok k (frames ++ more) x o.
Proof.
  intros L (H1 & H2 & H3). split; [rewrite app_length; lia|]. split.
  - rewrite firstn_prefix_app by auto. eapply Forall2_impl; [|exact H2]. intros; eapply item_is_le; eauto.
  - intros g Hg. specialize (H3 g Hg). destruct (gc_active g); auto. destruct H3 as [H3 H4]. split; auto.
    rewrite nth_error_app1; auto. apply nth_error_Some. congruence.
Qed.

Lemma Forall2_snoc_take {A B} (R : A -> B -> Prop) o frames x e :
  Forall2 R o (firstn (length o) frames) -> nth_error frames (length o) = Some e -> R x e ->
  Forall2 R (o ++ [x]) (firstn (length (o ++ [x])) frames).
Proof.
  intros H E Hx. rewrite app_length. cbn. rewrite Nat.add_1_r, (firstn_S_nth _ _ _ E).
  apply Forall2_app; auto.
Qed.

(** Only readers changed (other than through reads), heap and frames may have grown. *)
Lemma ginv_frame s tr s' e more :
  ginv s tr -> hle (gs_heap s) (gs_heap s') -> heap_ok (gs_heap s') ->
  gs_frames s' = gs_frames s ++ more -> append_of e = more -> Forall (entry_ok (gs_heap s')) more ->
  gs_closed s' = gclosing (gs_closed s) e -> gs_cons s' = gs_cons s -> gwatch (obtained tr) e = obtained tr ->
  ginv s' (tr ++ [e]).
Proof.
  intros [H1 H2 H3 H4 H5] L Hh Hf Ha He Hc Hg Hw. constructor.
  - rewrite appended_snoc, Ha, Hf. congruence.
  - rewrite gverdict_snoc, Hc. congruence.
  - rewrite Hf. apply Forall_app. split; auto. eapply Forall_impl; [|exact H3]. intros; eapply entry_ok_le; eauto.
  - auto.
  - rewrite obtained_snoc, Hw, Hg, Hf. eapply Forall2_impl; [|exact H5]. intros; apply greader_ok_le with (h := gs_heap s); auto.
Qed.

Lemma ginv_quiet s tr s' e :
  ginv s tr -> gs_heap s' = gs_heap s -> gs_frames s' = gs_frames s -> append_of e = [] ->
  gs_closed s' = gclosing (gs_closed s) e -> gs_cons s' = gs_cons s -> gwatch (obtained tr) e = obtained tr ->
  ginv s' (tr ++ [e]).
Proof.
  intros I E1 E2 E3 E4 E5 E6. apply ginv_frame with (s := s) (more := []); auto.
  - rewrite E1. apply hle_refl.
  - rewrite E1. apply I.
  - rewrite app_nil_r. auto.
Qed.

Lemma greader_at s tr c g : ginv s tr -> get (gs_cons s) c = Some g ->
  c < length (obtained tr) /\ greader_ok (gs_heap s) (gs_frames s) (Some g) (nth c (obtained tr) []).
Proof.
  intros [_ _ _ _ H] G. apply get_Some in G.
  assert (L : c < length (obtained tr)) by (rewrite <- (Forall2_len _ _ _ H); apply nth_error_Some; congruence).
  split; auto. exact (Forall2_nth_error _ _ _ _ _ _ H G (nth_error_nth' (A:=list item) _ [] L)).
Qed.

Lemma group_read_cases alive h frames closed g o :
  greader_ok h frames (Some g) o -> Forall (entry_ok h) frames ->
  exists a g', group_read alive h frames closed g = Val (a, g') /\
  match a with
  | AOk (Some b) => greader_ok h frames (Some g') (o ++ [IWhole b]) /\
      exists e, nth_error frames (length o) = Some e /\ frame_closed h e = Some Finished /\ b = payload h e
  | AOk None => greader_ok h frames (Some g') o /\ length o = length frames /\ closed = Some Finished
  | AErr e => greader_ok h frames (Some g') o /\
      ((length o = length frames /\ (closed = Some (Failed e) \/ (closed = None /\ alive = false /\ e = Cancel))) \/
       (exists en fs, nth_error frames (length o) = Some en /\ nth_error h (fst en) = Some fs /\
          (fs_closed (sy_state fs) = Some (Failed e) \/
           (fs_closed (sy_state fs) = None /\ fsys_alive fs = false /\ e = Cancel))))
  | APending => greader_ok h frames (Some g') o /\
      ((length o = length frames /\ closed = None /\ alive = true) \/
       (exists en fs, nth_error frames (length o) = Some en /\ nth_error h (fst en) = Some fs /\
          fs_closed (sy_state fs) = None /\ fsys_alive fs = true))
  | AFuel => False
  end.
Proof.
  intros R E. pose proof R as (H1 & H2 & H3). specialize (H3 g eq_refl).
  assert (Entry : forall en g0, nth_error frames (length o) = Some en ->
    gc_index g0 = S (length o) ->
    exists a g', (match nth_error h (fst en) with
    | None => Panic
    | Some fs =>
      match frame_read_all (fsys_alive fs) (snd en) (sy_state fs) with
      | Panic => Panic
      | Val (AOk b, _) => Val (AOk (Some b), GC (gc_index g0) None)
      | Val (AErr e, i) => Val (AErr e, GC (gc_index g0) (Some (fst en, i)))
      | Val (APending, i) => Val (APending, GC (gc_index g0) (Some (fst en, i)))
      | Val (AFuel, i) => Val (AFuel, GC (gc_index g0) (Some (fst en, i)))
      end
    end) = Val (a, g') /\
    match a with
  | AOk (Some b) => greader_ok h frames (Some g') (o ++ [IWhole b]) /\
      exists e, nth_error frames (length o) = Some e /\ frame_closed h e = Some Finished /\ b = payload h e
  | AOk None => greader_ok h frames (Some g') o /\ length o = length frames /\ closed = Some Finished
  | AErr e => greader_ok h frames (Some g') o /\
      ((length o = length frames /\ (closed = Some (Failed e) \/ (closed = None /\ alive = false /\ e = Cancel))) \/
       (exists en fs, nth_error frames (length o) = Some en /\ nth_error h (fst en) = Some fs /\
          (fs_closed (sy_state fs) = Some (Failed e) \/
           (fs_closed (sy_state fs) = None /\ fsys_alive fs = false /\ e = Cancel))))
  | APending => greader_ok h frames (Some g') o /\
      ((length o = length frames /\ closed = None /\ alive = true) \/
       (exists en fs, nth_error frames (length o) = Some en /\ nth_error h (fst en) = Some fs /\
          fs_closed (sy_state fs) = None /\ fsys_alive fs = true))
  | AFuel => False
  end).
  { intros en g0 He Hi.
    assert (EO : entry_ok h en) by (eapply Forall_forall; [exact E|]; eapply nth_error_In; eauto).
    destruct EO as (fs & Hf & Hle). rewrite Hf.
    assert (Keep : greader_ok h frames (Some (GC (gc_index g0) (Some (fst en, snd en)))) o).
    { split; auto. split; auto. intros g' [= <-]. cbn. rewrite Hi, <- surjective_pairing. auto. }
    unfold frame_read_all. destruct (fs_closed (sy_state fs)) as [[|er]|] eqn:C.
    - destruct (Nat.leb_spec (snd en) (length (fs_chunks (sy_state fs)))); [|lia].
      eexists _, _. split; [reflexivity|]. cbv beta iota.
      assert (P : concat (skipn (snd en) (fs_chunks (sy_state fs))) = payload h en) by (unfold payload; rewrite Hf; auto).
      assert (Q : frame_closed h en = Some Finished) by (unfold frame_closed; rewrite Hf; auto).
      split; [|exists en; auto].
      split; [|split].
      + rewrite app_length. cbn. assert (length o < length frames) by (apply nth_error_Some; congruence). lia.
      + eapply Forall2_snoc_take; eauto. cbn. rewrite Q. split; auto. congruence.
      + intros g' [= <-]. cbn. rewrite app_length. cbn. lia.
    - eexists _, _. split; [reflexivity|]. cbv beta iota. split; auto. right. exists en, fs. auto.
    - destruct (fsys_alive fs) eqn:A; eexists _, _; (split; [reflexivity|]); cbv beta iota; split; auto; right; exists en, fs; auto 6. }
  unfold group_read. destruct (gc_active g) as [[f i]|] eqn:A.
  - destruct H3 as [H3 H4]. exact (Entry (f, i) g H4 H3).
  - unfold group_next. rewrite A, H3. destruct (nth_error frames (length o)) as [[f i]|] eqn:N.
    + exact (Entry (f, i) (GC (S (length o)) None) eq_refl eq_refl).
    + apply nth_error_None in N.
      assert (Keep : greader_ok h frames (Some (GC (length o) None)) o)
        by (split; auto; split; auto; intros g' [= <-]; cbn; lia).
      assert (Keep' : greader_ok h frames (Some g) o) by exact R.
      destruct closed as [[|er]|].
      * eexists _, _. split; [reflexivity|]. cbv beta iota. rewrite H3. repeat split; auto; try lia. all: apply Keep.
      * eexists _, _. split; [reflexivity|]. cbv beta iota. split; auto. left. split; [lia|]. auto.
      * destruct alive; eexists _, _; (split; [reflexivity|]); cbv beta iota; split; auto; left; repeat split; auto; try lia.
Qed.

Lemma group_next_cases alive h frames closed g o :
  greader_ok h frames (Some g) o ->
  exists a g', group_next alive frames closed g = (a, g') /\
  match a with
  | AOk (Some e) => greader_ok h frames (Some g') (o ++ [ITake e]) /\ nth_error frames (length o) = Some e
  | AOk None => g' = g /\ length o = length frames /\ closed = Some Finished
  | AErr e => g' = g /\ length o = length frames /\ (closed = Some (Failed e) \/ (closed = None /\ alive = false /\ e = Cancel))
  | APending => g' = g /\ length o = length frames /\ closed = None /\ alive = true
  | AFuel => False
  end.
Proof.
  intros (H1 & H2 & H3). specialize (H3 g eq_refl). unfold group_next.
  assert (Take : forall e j, nth_error frames (length o) = Some e -> j = S (length o) ->
     greader_ok h frames (Some (GC j None)) (o ++ [ITake e])).
  { intros e j He ->. split; [|split].
    - rewrite app_length. cbn. assert (length o < length frames) by (apply nth_error_Some; congruence). lia.
    - eapply Forall2_snoc_take; eauto. cbn. auto.
    - intros g' [= <-]. cbn. rewrite app_length. cbn. lia. }
  destruct (gc_active g) as [e|] eqn:A.
  - destruct H3 as [H3 H4]. eexists _, _. split; [reflexivity|]. cbv beta iota. auto.
  - rewrite H3. destruct (nth_error frames (length o)) as [e|] eqn:N.
    + eexists _, _. split; [reflexivity|]. cbv beta iota. auto.
    + apply nth_error_None in N.
      destruct closed as [[|er]|]; [| |destruct alive]; eexists _, _; (split; [reflexivity|]); cbv beta iota;
        repeat split; auto; lia.
Qed.

Lemma hand_out_le h a : hle h (hand_out h a).
Proof.
  destruct a as [[f i]|]; cbn; [|apply hle_refl]. destruct (nth_error h f) eqn:E; [|apply hle_refl].
  eapply hle_set; eauto. apply fle_state. auto.
Qed.
Lemma hand_out_ok h a : heap_ok h -> (forall e, a = Some e -> entry_ok h e) -> heap_ok (hand_out h a).
Proof.
  intros H E. destruct a as [[f i]|]; cbn; auto. specialize (E _ eq_refl). destruct E as (x & Hx & Hi). cbn in *.
  rewrite Hx. apply heap_ok_set; auto. intros c j. cbn. rewrite get_app. destruct (Nat.eqb _ _).
  - intros [= <-]. auto.
  - intros Hc. exact (H _ _ Hx _ _ Hc).
Qed.

Lemma Forall2_set_r {A B} (R S : A -> B -> Prop) l m n a b d :
  Forall2 R l m -> (forall x y, R x y -> S x y) -> n < length l -> S a b ->
  Forall2 S (set_nth n a l) (set_nth n b m) /\ (b = nth n m d -> Forall2 S (set_nth n a l) m).
Proof.
  intros H Hi L Hs. assert (H' : Forall2 S l m) by (eapply Forall2_impl; eauto).
  split; [apply Forall2_set; auto|]. intros ->. eapply Forall2_set_l; eauto.
  apply nth_error_nth'. rewrite <- (Forall2_len _ _ _ H). auto.
Qed.

Lemma ginv_step w s tr o s' x : ginv s tr -> gstep w s o = (s', x) -> ginv s' (tr ++ [(o, x)]).
Proof.
  intros I H. unfold gstep in H. destruct o as [size|f o|p f c|p|p e|p|p|p| |p|c|c|c|c].
  - injection H as <- <-. apply ginv_frame with (s := s) (more := []); auto; cbn.
    + apply hle_app.
    + intros f a Hf. destruct (Nat.lt_ge_cases f (length (gs_heap s))).
      * rewrite nth_error_app1 in Hf by auto. eapply gi_heap; eauto.
      * rewrite nth_error_app2 in Hf by auto. destruct (f - _) as [|[]]; cbn in Hf; try discriminate.
        injection Hf as <-. intros c i. cbn. destruct c; discriminate.
    + rewrite app_nil_r. auto.
  - destruct (nth_error (gs_heap s) f) as [fs|] eqn:E; [|injection H as <- <-; apply ginv_quiet with (s := s); auto].
    destruct (fstep w fs o) as [fs' y] eqn:F. injection H as <- <-. apply ginv_frame with (s := s) (more := []); auto; cbn.
    + eapply hle_set; eauto. eapply fstep_fle; eauto.
    + apply heap_ok_set; [apply I|]. eapply fstep_handles; eauto. eapply gi_heap; eauto.
    + rewrite app_nil_r. auto.
  - destruct (get (gs_prods s) p); [|injection H as <- <-; apply ginv_quiet with (s := s); auto].
    destruct (nth_error (gs_heap s) f) as [fs|] eqn:E; [|injection H as <- <-; apply ginv_quiet with (s := s); auto].
    destruct (get (sy_cons fs) c) as [i|] eqn:G; [|injection H as <- <-; apply ginv_quiet with (s := s); auto].
    pose proof (gi_heap _ _ I _ _ E) as Hk.
    assert (Hk' : handles_ok (with_cons fs (set_nth c None (sy_cons fs)))).
    { intros d j. cbn. destruct (Nat.eq_dec c d) as [->|N].
      - erewrite get_set_eq by eauto. discriminate.
      - rewrite get_set_ne by auto. apply Hk. }
    assert (Hl : hle (gs_heap s) (set_nth f (with_cons fs (set_nth c None (sy_cons fs))) (gs_heap s)))
      by (eapply hle_set; eauto; apply fle_state; auto).
    cbn in H. destruct (gs_closed s) eqn:C; injection H as <- <-.
    + apply ginv_frame with (s := s) (more := []); auto; cbn; auto.
      * apply heap_ok_set; auto. apply I.
      * rewrite app_nil_r. auto.
    + apply ginv_frame with (s := s) (more := [(f, i)]); auto; cbn; auto.
      * apply heap_ok_set; auto. apply I.
      * constructor; auto. eapply entry_ok_le; eauto. exists fs. cbn. split; auto. apply Hk in G. auto.
  - destruct (get (gs_prods s) p); injection H as <- <-; apply ginv_quiet with (s := s); auto.
  - destruct (get (gs_prods s) p); injection H as <- <-; apply ginv_quiet with (s := s); auto.
  - destruct (get (gs_prods s) p); injection H as <- <-; apply ginv_quiet with (s := s); auto.
  - destruct (get (gs_prods s) p); injection H as <- <-; apply ginv_quiet with (s := s); auto.
  - destruct (get (gs_prods s) p); injection H as <- <-; apply ginv_quiet with (s := s); auto.
  - destruct (gs_guards s); injection H as <- <-; apply ginv_quiet with (s := s); auto.
  - destruct (get (gs_prods s) p); injection H as <- <-; [|apply ginv_quiet with (s := s); auto].
    destruct I as [I1 I2 I3 I4 I5]. constructor; rewrite ?appended_snoc, ?gverdict_snoc, ?obtained_snoc; cbn; rewrite ?app_nil_r; auto.
    apply Forall2_app; auto. constructor; auto. split; [cbn; lia|]. split; [cbn; auto|]. intros g [= <-]. reflexivity.
  - (* next *) destruct (get (gs_cons s) c) as [g|] eqn:G; [|injection H as <- <-; apply ginv_quiet with (s := s); auto].
    destruct (greader_at _ _ _ _ I G) as [L R]. set (l := nth c (obtained tr) []) in *.
    destruct (group_next_cases (gsys_alive s) _ _ (gs_closed s) _ _ R) as (a & g' & E & P). rewrite E in H.
    destruct a as [[en|]|er| |]; [| | | |contradiction]; pose proof (f_equal fst H) as Hs; pose proof (f_equal snd H) as Hx;
      cbn [fst snd] in Hs, Hx; subst s' x; clear H.
    + destruct P as [P1 P2]. destruct I as [I1 I2 I3 I4 I5].
      constructor; rewrite ?appended_snoc, ?gverdict_snoc, ?obtained_snoc; cbn [append_of gclosing gwatch gwith_heap gwith_cons gs_frames gs_closed gs_heap gs_cons]; rewrite ?app_nil_r; auto.
      * eapply Forall_impl; [|exact I3]. intros z Hz. eapply entry_ok_le; [exact (hand_out_le (gs_heap s) (Some en))|]. exact Hz.
      * apply hand_out_ok; auto. intros e [= <-]. eapply Forall_forall; [exact I3|]. eapply nth_error_In; eauto.
      * assert (U : forall z y, greader_ok (gs_heap s) (gs_frames s) z y -> greader_ok (hand_out (gs_heap s) (Some en)) (gs_frames s) z y).
        { intros z y Hz. rewrite <- (app_nil_r (gs_frames s)). eapply greader_ok_le; [apply hand_out_le|]. auto. }
        apply Forall2_set; [eapply Forall2_impl; eauto|]. apply U. exact P1.
    + destruct P as [-> P]. assert (S1 : set_nth c (Some g) (gs_cons s) = gs_cons s) by (apply set_nth_same; apply get_Some; auto).
      apply ginv_quiet with (s := s); auto.
    + destruct P as [-> P]. assert (S1 : set_nth c (Some g) (gs_cons s) = gs_cons s) by (apply set_nth_same; apply get_Some; auto).
      apply ginv_quiet with (s := s); auto.
    + destruct P as [-> P]. assert (S1 : set_nth c (Some g) (gs_cons s) = gs_cons s) by (apply set_nth_same; apply get_Some; auto).
      apply ginv_quiet with (s := s); auto.
  - (* read *) destruct (get (gs_cons s) c) as [g|] eqn:G; [|injection H as <- <-; apply ginv_quiet with (s := s); auto].
    destruct (greader_at _ _ _ _ I G) as [L R]. set (l := nth c (obtained tr) []) in *.
    destruct (group_read_cases (gsys_alive s) _ _ (gs_closed s) _ _ R (gi_entries _ _ I)) as (a & g' & E & P). rewrite E in H.
    injection H as <- <-. destruct I as [I1 I2 I3 I4 I5].
    assert (Lc : c < length (gs_cons s)) by (eapply get_lt; eauto).
    destruct a as [[b|]|er| |]; [| | | |contradiction];
      (constructor; rewrite ?appended_snoc, ?gverdict_snoc, ?obtained_snoc; cbn [append_of gclosing gwatch gwith_heap gwith_cons gs_frames gs_closed gs_heap gs_cons]; rewrite ?app_nil_r; auto).
    + destruct P as [P1 P2]. apply Forall2_set; auto.
    + destruct P as [P1 P2]. eapply Forall2_set_r with (b := l) (d := []); eauto.
    + destruct P as [P1 P2]. eapply Forall2_set_r with (b := l) (d := []); eauto.
    + destruct P as [P1 P2]. eapply Forall2_set_r with (b := l) (d := []); eauto.
  - destruct (get (gs_cons s) c) as [g|] eqn:G; [|injection H as <- <-; apply ginv_quiet with (s := s); auto].
    destruct (greader_at _ _ _ _ I G) as [L R]. injection H as <- <-. destruct I as [I1 I2 I3 I4 I5].
    constructor; rewrite ?appended_snoc, ?gverdict_snoc, ?obtained_snoc; cbn; rewrite ?app_nil_r; auto.
    apply Forall2_app; auto.
  - destruct (get (gs_cons s) c) as [g|] eqn:G; [|injection H as <- <-; apply ginv_quiet with (s := s); auto].
    destruct (greader_at _ _ _ _ I G) as [L R]. injection H as <- <-. destruct I as [I1 I2 I3 I4 I5].
    assert (Lc : c < length (gs_cons s)) by (eapply get_lt; eauto).
    constructor; rewrite ?appended_snoc, ?gverdict_snoc, ?obtained_snoc; cbn; rewrite ?app_nil_r; auto.
    eapply Forall2_set_r with (d := []); eauto. destruct R as (R1 & R2 & _). split; [exact R1|]. split; [exact R2|].
    intros ? [=].
Qed.

Lemma grun_app w s a b :
  grun w s (a ++ b) =
  (fst (grun w (fst (grun w s a)) b), snd (grun w s a) ++ snd (grun w (fst (grun w s a)) b)).
Proof.
  revert s; induction a; intros; cbn.
  - destruct (grun w s b); auto.
  - destruct (gstep w s a) as [s1 x]. rewrite IHa. destruct (grun w s1 a0); cbn. auto.
Qed.
Lemma grun_snoc w s ops o :
  grun w s (ops ++ [o]) =
  let (s1, tr) := grun w s ops in let (s2, x) := gstep w s1 o in (s2, tr ++ [(o, x)]).
Proof. rewrite grun_app. cbn. destruct (grun w s ops) as [s1 tr]. cbn. destruct (gstep w s1 o). auto. Qed.

Lemma ginv_run w ops : ginv (fst (grun w gsys_new ops)) (snd (grun w gsys_new ops)).
Proof.
  induction ops using rev_ind.
  - constructor; cbn; auto. intros f a. destruct f; discriminate.
  - rewrite grun_snoc. destruct (grun w gsys_new ops) as [s tr]. destruct (gstep w s x) eqn:E.
    cbn [fst snd] in *. eapply ginv_step; eauto.
Qed.
