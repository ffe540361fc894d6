(** A viewer that waits has been shown everything. *)
From Coq Require Import NArith ZArith List Lia Bool Arith.
From Coq Require Import Init.Byte Strings.Byte.
From Coq Require Import ZifyBool ZifyNat ZifyN.
From Verif.Model Require Import Base Coding Message ErrorCode Stream Frame FrameSys TrackSys Media Publisher Transfer Net Live.
From Verif.Model Require MediaRead.
From Verif.Spec Require Import TrackSpec TransferSpec NetSpec MediaSpec LiveSpec.
From Verif.Spec Require MediaReadSpec.
From Verif.Proofs Require Import BaseP TableP TrackP TransferP RelayP NetP NetSysP NetStepP NetTopP MediaP LiveWriteP LiveP.
From Verif.Proofs Require MediaReadP LiveReadP.
Import ListNotations.
Open Scope nat_scope.

(** * Where a reader of a track stands *)

Definition holds (n : net) (i c : nat) (p : option N) : Prop :=
  exists t, nth_error (nt_tracks n) i = Some t /\ get (ts_cons t) c = Some p.

Lemma tstep_cons m t o t' x c p : tstep m t o = (t', x) -> get (ts_cons t) c = Some p -> o <> TNext c -> o <> TCDrop c ->
  get (ts_cons t') c = Some p.
Proof.
  intros St G N1 N2. unfold tstep in St.
  assert (App : forall y, get (ts_cons t ++ [y]) c = Some p).
  { intros y. rewrite get_app. pose proof (get_lt _ _ _ G). destruct (Nat.eqb_spec c (length (ts_cons t))); [lia|exact G]. }
  destruct o as [q g|q|q id|q|q e|q|q|q| |q|d|d|d|d];
    try (destruct (idle t q); [|injection St as <- _; exact G]); try (injection St as <- _; exact G).
  - destruct (track_insert _ _ _) as [[b l]|]; injection St as <- _; exact G.
  - destruct (append_seq _ _); injection St as <- _; exact G.
  - destruct (get (ts_prods t) q) as [[|k]|]; try (injection St as <- _; exact G).
    destruct (track_insert _ _ _) as [[[] l]|]; injection St as <- _; exact G.
  - destruct (ts_guards t); injection St as <- _; exact G.
  - injection St as <- _. apply App.
  - destruct (get (ts_cons t) d) as [pv|]; [|injection St as <- _; exact G].
    destruct (track_next _ _ _ _) as [[a pr]|]; injection St as <- _; [|exact G]. cbn. rewrite get_set_ne; [exact G|congruence].
  - destruct (get (ts_cons t) d); injection St as <- _; exact G.
  - destruct (get (ts_cons t) d) as [pv|]; injection St as <- _; [apply App|exact G].
  - destruct (get (ts_cons t) d) as [pv|]; injection St as <- _; [|exact G]. cbn. rewrite get_set_ne; [exact G|congruence].
Qed.

Lemma at_track_holds m j o s s' x i c p : at_track m j o s = (s', x) -> holds s i c p -> (j = i -> o <> TNext c /\ o <> TCDrop c) ->
  holds s' i c p /\ nt_links s' = nt_links s.
Proof.
  intros A (t & Et & G) Ne. unfold at_track in A. destruct (nth_error (nt_tracks s) j) as [u|] eqn:E.
  2: { injection A as <- _. split; [exists t; auto|reflexivity]. }
  destruct (tstep m u o) as [u' y] eqn:St. injection A as <- _. split; [|reflexivity].
  destruct (Nat.eq_dec j i) as [->|N].
  - rewrite E in Et. injection Et as ->. destruct (Ne eq_refl) as (N1 & N2). exists u'. cbn [with_tracks nt_tracks].
    split; [apply nth_error_set_eq, nth_error_Some; congruence|]. eapply tstep_cons; eauto.
  - exists t. cbn [with_tracks nt_tracks]. rewrite nth_error_set_ne by exact N. auto.
Qed.

Definition ends_at (i c : nat) (l : link) : bool := Nat.eqb (ln_src l) i && Nat.eqb (ln_cons l) c.
Lemma owned_eq s i c : owned s i c = existsb (ends_at i c) (nt_links s).
Proof. reflexivity. Qed.

Lemma owned_set i c l ln ln' ls : nth_error ls l = Some ln -> ln_src ln' = ln_src ln -> ln_cons ln' = ln_cons ln ->
  existsb (ends_at i c) (set_nth l ln' ls) = existsb (ends_at i c) ls.
Proof.
  revert l. induction ls as [|a ls IH]; intros [|l] E E1 E2; try discriminate; cbn [set_nth existsb].
  - injection E as ->. unfold ends_at at 1 3. rewrite E1, E2. reflexivity.
  - rewrite (IH l E E1 E2). reflexivity.
Qed.

Lemma turn_ends m ln o ss ln' x : turn m ln o ss = (ln', x) -> ln_src ln' = ln_src ln /\ ln_cons ln' = ln_cons ln.
Proof. unfold turn. destruct (sstep _ _ _ _) as [t y]. destruct y; intros [= <- _]; auto. Qed.

Lemma unowned s i c l ln : owned s i c = false -> nth_error (nt_links s) l = Some ln -> ln_src ln = i -> ln_cons ln = c -> False.
Proof.
  intros O E <- <-. rewrite owned_eq in O. assert (X : existsb (ends_at (ln_src ln) (ln_cons ln)) (nt_links s) = true).
  { apply existsb_exists. exists ln. split; [eapply nth_error_In; exact E|]. unfold ends_at. rewrite !Nat.eqb_refl. reflexivity. }
  congruence.
Qed.

Lemma finish_turn_holds m l ln y did s s' x i c p ln0 : finish_turn m l ln y did s = (s', x) ->
  nth_error (nt_links s) l = Some ln0 -> ln_src ln = ln_src ln0 -> ln_cons ln = ln_cons ln0 ->
  holds s i c p -> owned s i c = false -> holds s' i c p /\ owned s' i c = false.
Proof.
  intros F E E1 E2 Hd O. unfold finish_turn in F.
  assert (O1 : owned (with_links s (set_nth l ln (nt_links s))) i c = false).
  { rewrite owned_eq. cbn [with_links nt_links]. rewrite (owned_set i c l ln0 ln _ E E1 E2). exact O. }
  destruct (is_over ln).
  - destruct (at_track m (ln_src ln) _ _) as [s2 z] eqn:A. injection F as <- _.
    destruct (at_track_holds _ _ _ _ _ _ i c p A) as (A1 & A2); [exact Hd| |].
    { intros Ei. split; [discriminate|]. intros [= Ec]. rewrite E1 in Ei. rewrite E2 in Ec. exact (unowned s i c l ln0 O E Ei Ec). }
    split; [exact A1|]. rewrite owned_eq, A2. exact O1.
  - injection F as <- _. split; [exact Hd|exact O1].
Qed.

Lemma nstep_holds m w n o n' x i c p : nstep m w n o = (n', x) -> holds n i c p -> owned n i c = false ->
  o <> NUse i (TNext c) -> o <> NUse i (TCDrop c) -> holds n' i c p /\ owned n' i c = false.
Proof.
  intros St Hd O N1 N2.
  assert (B : bad n = (n', x) -> holds n' i c p /\ owned n' i c = false) by (intros E; injection E as <- _; auto).
  assert (At : forall j o s1 y, at_track m j o n = (s1, y) -> (j = i -> o <> TNext c /\ o <> TCDrop c) -> holds s1 i c p /\ owned s1 i c = false /\ nt_links s1 = nt_links n).
  { intros j o' s1 y A Ne. destruct (at_track_holds _ _ _ _ _ _ i c p A Hd Ne) as (A1 & A2). split; [exact A1|]. rewrite owned_eq, A2. auto. }
  assert (Lk : forall s1 l ln ln', holds s1 i c p -> owned s1 i c = false -> nth_error (nt_links s1) l = Some ln -> ln_src ln' = ln_src ln -> ln_cons ln' = ln_cons ln ->
    holds (with_links s1 (set_nth l ln' (nt_links s1))) i c p /\ owned (with_links s1 (set_nth l ln' (nt_links s1))) i c = false).
  { intros s1 l ln ln' A1 A2 E E1 E2. split; [exact A1|]. rewrite owned_eq. cbn [with_links nt_links]. rewrite (owned_set i c l ln ln' _ E E1 E2). exact A2. }
  destruct o as [|j o|j o|j q id prio|l|l newer lost|l|l k lv canc sched r|l clean|l]; cbn [nstep] in St.
  - injection St as <- _. auto.
  - destruct (nth_error _ j); [|exact (B St)]. destruct (fill _ _ _); [|exact (B St)]. injection St as <- _. auto.
  - destruct (_ && _); [|exact (B St)]. destruct (at_track m j o n) as [s1 y] eqn:A. injection St as <- _.
    destruct (At _ _ _ _ A) as (A1 & A2 & _); [|auto]. intros ->. split; intros ->; congruence.
  - destruct (_ || _); [|exact (B St)]. destruct (nth_error (nt_tracks n) j) as [t|] eqn:Et; [|exact (B St)].
    destruct (tstep m t (TConsume q)) as [t' y] eqn:Tt. destruct y; try exact (B St).
    destruct (tstep m tsys_new (TClone 0)) as [t1 x1]. destruct (tstep m t1 (TClone 0)) as [t2 x2].
    injection St as <- _. destruct Hd as (u & Eu & G). split.
    + destruct (Nat.eq_dec j i) as [->|Nj].
      * rewrite Et in Eu. injection Eu as ->. exists t'. cbn [nt_tracks].
        split; [|eapply tstep_cons; [exact Tt|exact G|discriminate|discriminate]].
        apply nth_error_grow. apply nth_error_set_eq, nth_error_Some. congruence.
      * exists u. cbn [nt_tracks]. split; [|exact G]. apply nth_error_grow. rewrite nth_error_set_ne by exact Nj. exact Eu.
    + rewrite owned_eq. cbn [nt_links]. rewrite existsb_app. cbn [existsb]. rewrite owned_eq in O. rewrite O. unfold ends_at. cbn [ln_src ln_cons].
      destruct (Nat.eqb_spec j i) as [->|Nj]; [|reflexivity]. rewrite Et in Eu. injection Eu as ->. apply get_lt in G.
      destruct (Nat.eqb_spec (length (ts_cons u)) c); [lia|reflexivity].
  - destruct (nth_error (nt_links n) l) as [ln|] eqn:El; [|exact (B St)]. destruct (is_over ln); [exact (B St)|].
    destruct (at_track m (ln_src ln) (TNext (ln_cons ln)) n) as [s1 y] eqn:A.
    destruct (At _ _ _ _ A) as (A1 & A2 & A3).
    { intros Ei. split; [|discriminate]. intros [= Ec]. exact (unowned n i c l ln O El Ei Ec). }
    destruct y as [| | | | |[[g|]|e| |]|]; try (injection St as <- _; auto; fail);
      destruct (turn m ln _ _) as [ln' z] eqn:T; destruct (turn_ends _ _ _ _ _ _ T) as (T1 & T2);
      eapply finish_turn_holds; eauto; rewrite A3; exact El.
  - destruct (nth_error (nt_links n) l) as [ln|] eqn:El; [|exact (B St)]. destruct (is_over ln); [exact (B St)|].
    destruct (if newer then tv_new (ln_serve ln) else tv_old (ln_serve ln)) as [k|]; [|exact (B St)].
    destruct (nth_error (ln_streams ln) k) as [st|]; [|exact (B St)].
    destruct lost.
    + destruct (turn m ln _ _) as [ln' z] eqn:T. destruct (turn_ends _ _ _ _ _ _ T) as (T1 & T2). eapply finish_turn_holds; eauto.
    + destruct (nth_error _ (st_src st)) as [[fs [o|]]|]; try exact (B St).
      destruct (turn m ln _ _) as [ln' z] eqn:T. destruct (turn_ends _ _ _ _ _ _ T) as (T1 & T2). eapply finish_turn_holds; eauto.
  - destruct (nth_error (nt_links n) l) as [ln|] eqn:El; [|exact (B St)]. destruct (is_over ln); [exact (B St)|].
    destruct (turn m ln _ _) as [ln' z] eqn:T. destruct (turn_ends _ _ _ _ _ _ T) as (T1 & T2). eapply finish_turn_holds; eauto.
  - destruct (nth_error (nt_links n) l) as [ln|] eqn:El; [|exact (B St)].
    destruct (nth_error (ln_streams ln) k) as [st|]; [|exact (B St)].
    destruct (nth_error _ (st_src st)) as [g|]; [|exact (B St)].
    destruct (serve_group _ _ _) as [sv sd].
    destruct (possible sv sd r && _ && _); [|exact (B St)].
    assert (U : forall s1 st' a did, holds s1 i c p -> owned s1 i c = false -> nth_error (nt_links s1) l = Some ln ->
      (update l ln k st' s1, NOut did (NGiven a)) = (n', x) -> holds n' i c p /\ owned n' i c = false).
    { intros s1 st' a did A1 A2 E1 E. injection E as <- _. unfold update. eapply Lk; eauto. }
    destruct (recv_stream w canc r) as [e|h t g']; [eapply U; [| | |exact St]; auto|].
    destruct (st_at st) as [[j|]|].
    + eapply U; [| | |exact St]; auto.
    + eapply U; [| | |exact St]; auto.
    + destruct (ln_phase ln); try (eapply U; [| | |exact St]; auto; fail).
      all: destruct (at_track m (S l) _ n) as [s1 y] eqn:A; (destruct (At _ _ _ _ A) as (A1 & A2 & A3); [intros _; split; discriminate|]);
        destruct y as [| | |[]| | |]; (eapply U; [| | |exact St]); auto; cbn [with_groups nt_links]; rewrite ?A3; exact El.
  - destruct (nth_error (nt_links n) l) as [ln|] eqn:El; [|exact (B St)].
    destruct (ln_phase ln), clean, (ln_over ln) as [[e|]|]; try exact (B St);
      destruct (at_track m (S l) _ n) as [s1 y] eqn:A; (destruct (At _ _ _ _ A) as (A1 & A2 & A3); [intros _; split; discriminate|]);
      injection St as <- _; apply (Lk _ _ ln); auto; rewrite A3; exact El.
  - destruct (nth_error (nt_links n) l) as [ln|] eqn:El; [|exact (B St)].
    destruct (ln_phase ln); try exact (B St).
    destruct (at_track m (S l) _ n) as [s1 y] eqn:A; destruct (At _ _ _ _ A) as (A1 & A2 & A3); [intros _; split; discriminate|].
    injection St as <- _. apply (Lk _ _ ln); auto. rewrite A3. exact El.
Qed.

(** * Finished groups *)

(** Only a group that has a successor is finished. *)
Definition fin0 (n : net) (k : nat) : Prop :=
  forall j h, nth_error (groups0 n) j = Some h -> rg_closed h = Some Finished -> S j < k.

Lemma fin0_le n k k' : fin0 n k -> k <= k' -> fin0 n k'.
Proof. intros F L j h E C. specialize (F j h E C). lia. Qed.
Lemma fin0_same n n' k : groups0 n' = groups0 n -> fin0 n k -> fin0 n' k.
Proof. unfold fin0. intros ->. auto. Qed.

Lemma fill_closed w o h h' : fill w o h = Some h' -> o <> GEnd Finished -> rg_closed h' = Some Finished -> rg_closed h = Some Finished.
Proof.
  unfold fill. destruct o as [z|i c|i|i e|e]; intros F Ne C.
  - destruct (rg_closed h); [discriminate|]. injection F as <-. exact C.
  - destruct (nth_error _ _); [|discriminate]. destruct (fill_frame _ _ _); [|discriminate]. injection F as <-. exact C.
  - destruct (nth_error _ _); [|discriminate]. destruct (fill_frame _ _ _); [|discriminate]. injection F as <-. exact C.
  - destruct (nth_error _ _); [|discriminate]. destruct (fill_frame _ _ _); [|discriminate]. injection F as <-. exact C.
  - destruct (rg_closed h); [discriminate|]. injection F as <-. cbn in C. congruence.
Qed.

Lemma fin0_fill m w n j o n' x k : 0 < length (nt_groups n) -> nstep m w n (NFill j o) = (n', x) -> fin0 n k ->
  (o = GEnd Finished -> S j < k) -> fin0 n' k.
Proof.
  intros L St F O. destruct (fill_step _ _ _ _ _ _ _ L St) as [(-> & _)|(h & h' & E & Fi & G & _ & _)]; [exact F|].
  intros i y Ei C. rewrite G in Ei. destruct (Nat.eq_dec j i) as [->|N].
  - rewrite nth_error_set_eq in Ei by (apply nth_error_Some; congruence). injection Ei as <-.
    destruct o as [z|f c|f|f e|[|e]]; try (exact (F i h E (fill_closed _ _ _ _ Fi ltac:(discriminate) C))). exact (O eq_refl).
  - rewrite nth_error_set_ne in Ei by exact N. exact (F i y Ei C).
Qed.

Lemma fin0_use m w n o n' x k : nstep m w n (NUse 0 o) = (n', x) -> fin0 n k -> fin0 n' k.
Proof.
  intros St F. destruct (use_step _ _ _ _ _ _ St) as [(-> & _)|(t & t' & y & _ & _ & _ & G & _)]; [exact F|]. eapply fin0_same; eauto.
Qed.

Lemma fin0_group m w n n' x k : 0 < length (nt_groups n) -> nstep m w n NGroup = (n', x) -> fin0 n k -> fin0 n' k.
Proof.
  intros L St F. destruct (group_step _ _ _ _ _ L St) as (G & _ & _). intros j h E C. rewrite G in E.
  destruct (Nat.lt_ge_cases j (length (groups0 n))) as [Lj|Lj].
  - rewrite nth_error_app1 in E by exact Lj. exact (F j h E C).
  - rewrite nth_error_app2 in E by exact Lj. destruct (j - length (groups0 n)) as [|[|d]]; try discriminate. injection E as <-. discriminate C.
Qed.

Lemma fin0_section m w n H gs cur j f n' tr : (62 <= w)%N -> ninv w n H -> strong n H gs cur (Some (j, f)) ->
  nrun m w n (section n cur j f) = (n', tr) -> fin0 n (length gs) -> fin0 n' (length gs).
Proof.
  intros W K (_ & SS) R F. destruct (ninv_pos _ _ _ K) as (Lg & Lt).
  destruct j; cbn [section nrun] in R; cbn [state] in SS.
  - destruct SS as (_ & _ & a & h & pre & Eh & Eg & Lp & ->). destruct (nstep m w n _) as [n1 x1] eqn:St in R. injection R as <- _.
    eapply fin0_fill; eauto. intros _. rewrite Eg, app_length, Lp, Eh, app_length. cbn. lia.
  - destruct (nstep m w n _) as [n1 x1] eqn:St in R. injection R as <- _. eapply fin0_use; eauto.
  - destruct (nstep m w n NGroup) as [n1 x1] eqn:St1 in R. destruct (nstep m w n1 _) as [n2 x2] eqn:St2 in R. injection R as <- _.
    eapply fin0_use; eauto. eapply fin0_group; eauto.
  - destruct (nstep m w n _) as [n1 x1] eqn:St in R. injection R as <- _. eapply fin0_fill; eauto. discriminate.
  - destruct (nstep m w n _) as [n1 x1] eqn:St in R. injection R as <- _. eapply fin0_fill; eauto. discriminate.
  - destruct (nstep m w n _) as [n1 x1] eqn:St in R. injection R as <- _. eapply fin0_fill; eauto. discriminate.
  - destruct (nstep m w n _) as [n1 x1] eqn:St in R. injection R as <- _. eapply fin0_fill; eauto. discriminate.
Qed.

Lemma fin0_gone m w s n k : 0 < length (nt_groups n) -> fin0 n k -> fin0 (lv_net (gone m w s n)) k.
Proof.
  intros L F. unfold gone. cbn [lv_net]. destruct (lv_cur s) as [g|]; cbn [app nrun].
  - destruct (nstep m w n (NFill g _)) as [n1 x1] eqn:E1. destruct (nstep m w n1 _) as [n2 x2] eqn:E2. cbn [fst].
    eapply fin0_use; eauto. eapply fin0_fill; eauto. discriminate.
  - destruct (nstep m w n _) as [n2 x2] eqn:E2. cbn [fst]. eapply fin0_use; eauto.
Qed.

(** * The newest group a reader was given *)

Definition seqs (r : MediaRead.reader) : list N := map MediaRead.rg_seq (groups_in r).

(** The newest one is the last that the reader still holds, or it has ended. *)
Record rtop (k : nat) (G : list group) (r : MediaRead.reader) : Prop := {
  rt_in : incl (seqs r) (map g_seq G);
  rt_none : MediaRead.rd_cur r = None -> MediaRead.rd_pending r = [];
  rt_top : forall g, last_opt G = Some g ->
    match last_opt (seqs r) with Some q => q = g_seq g | None => S (N.to_nat (g_seq g)) < k end }.

Lemma rtop_new k : rtop k [] MediaRead.rd_new.
Proof. constructor; cbn; [intros ? []|reflexivity|discriminate]. Qed.
Lemma rtop_le k k' G r : rtop k G r -> k <= k' -> rtop k' G r.
Proof. intros [A B C] L. constructor; auto. intros g E. specialize (C g E). destruct (last_opt (seqs r)); [exact C|lia]. Qed.

(** The same groups. *)
Lemma rtop_same k G r r' : rtop k G r -> seqs r' = seqs r -> (MediaRead.rd_cur r' = None -> MediaRead.rd_pending r' = []) -> rtop k G r'.
Proof. intros [A B C] E N. constructor; rewrite ?E; auto. Qed.

Lemma buffer_seq fuel cutoff : forall g env b g', MediaRead.buffer_until fuel cutoff g env = (b, g') -> MediaRead.rg_seq g' = MediaRead.rg_seq g.
Proof.
  induction fuel as [|fuel IH]; intros g env b g' H; cbn [MediaRead.buffer_until] in H; [injection H as _ <-; reflexivity|].
  destruct (match MediaRead.rg_max g with Some m => if (cutoff <=? m)%N then Some m else None | None => None end); [injection H as _ <-; reflexivity|].
  destruct (MediaRead.rg_buf g) as [|f rest]; [|apply IH in H; exact H].
  destruct env as [|[ts| | |] env]; try (injection H as _ <-; reflexivity).
  rewrite LiveReadP.rg_frame_eq in H. apply IH in H. exact H.
Qed.

Lemma map_set_nth {A B} (f : A -> B) i x y l : nth_error l i = Some y -> f x = f y -> map f (set_nth i x l) = map f l.
Proof.
  revert i. induction l as [|z l IH]; intros [|i] E Q; try discriminate; cbn.
  - injection E as ->. rewrite Q. reflexivity.
  - rewrite (IH i E Q). reflexivity.
Qed.

Lemma last_opt_cons {A} (x : A) l : l <> [] -> last_opt (x :: l) = last_opt l.
Proof. destruct l; [congruence|reflexivity]. Qed.
Lemma last_opt_app {A} (a l : list A) : l <> [] -> last_opt (a ++ l) = last_opt l.
Proof. intros N. induction a as [|x a IH]; [reflexivity|]. cbn [app]. rewrite last_opt_cons; [exact IH|]. destruct a; [exact N|discriminate]. Qed.

(** Leaving groups behind that are not the last. *)
Lemma rtop_suffix k G r r' l : rtop k G r -> seqs r = l ++ seqs r' -> seqs r' <> [] ->
  (MediaRead.rd_cur r' = None -> MediaRead.rd_pending r' = []) -> rtop k G r'.
Proof.
  intros [A B C] E N Nn. constructor; auto.
  - intros q Hq. apply A. rewrite E. apply in_or_app. auto.
  - intros g Eg. specialize (C g Eg). rewrite E, last_opt_app in C by exact N. exact C.
Qed.

Lemma pop_none r : MediaRead.rd_cur (MediaRead.pop r) = None -> MediaRead.rd_pending (MediaRead.pop r) = [].
Proof. unfold MediaRead.pop. destruct (MediaRead.rd_pending r); [reflexivity|discriminate]. Qed.
Lemma pop_seqs r : seqs (MediaRead.pop r) = map MediaRead.rg_seq (MediaRead.rd_pending r).
Proof. unfold MediaRead.pop, seqs, groups_in. destruct (MediaRead.rd_pending r); reflexivity. Qed.

Lemma buffering_top k G fuel cutoff bufs : forall r r' x, rtop k G r -> MediaRead.buffering fuel cutoff r bufs = (r', x) -> rtop k G r'.
Proof.
  induction bufs as [|[i env] bufs IH]; intros r r' x T H; cbn [MediaRead.buffering] in H; [injection H as <- _; exact T|].
  destruct (nth_error (MediaRead.rd_pending r) i) as [g|] eqn:E; [|exact (IH _ _ _ T H)].
  destruct (MediaRead.buffer_until fuel cutoff g env) as [b g'] eqn:Bu. pose proof (buffer_seq _ _ _ _ _ _ Bu) as Q.
  set (r1 := MediaRead.Rd (MediaRead.rd_cur r) (set_nth i g' (MediaRead.rd_pending r)) (MediaRead.rd_max r) (MediaRead.rd_lat r)) in *.
  assert (M : map MediaRead.rg_seq (set_nth i g' (MediaRead.rd_pending r)) = map MediaRead.rg_seq (MediaRead.rd_pending r)) by (eapply map_set_nth; eauto).
  assert (T1 : rtop k G r1).
  { apply (rtop_same k G r); [exact T| |].
    - unfold seqs, groups_in, r1. cbn [MediaRead.rd_cur MediaRead.rd_pending]. rewrite !map_app, M. reflexivity.
    - unfold r1. cbn. intros N. pose proof (rt_none _ _ _ T N) as P. rewrite P in E. destruct i; discriminate. }
  destruct b; [|exact (IH _ _ _ T1 H)|injection H as <- _; exact T1].
  injection H as <- _. cbn [r1 MediaRead.rd_cur MediaRead.rd_pending MediaRead.rd_max MediaRead.rd_lat].
  set (P := set_nth i g' (MediaRead.rd_pending r)) in *.
  assert (Li : i < length P) by (unfold P; rewrite set_nth_length; apply nth_error_Some; congruence).
  apply (rtop_suffix k G r1 _ (map MediaRead.rg_seq (match MediaRead.rd_cur r with Some g => [g] | None => [] end ++ firstn i P))); [exact T1| | |apply pop_none].
  - rewrite pop_seqs. cbn [MediaRead.rd_pending]. rewrite <- map_app, <- app_assoc, firstn_skipn. reflexivity.
  - rewrite pop_seqs. cbn [MediaRead.rd_pending]. intros E0. apply (f_equal (@length N)) in E0. rewrite map_length, skipn_length in E0. cbn in E0. lia.
Qed.

Lemma increasing_all G g : increasing (G ++ [g]) -> forall h, In h G -> (g_seq h < g_seq g)%N.
Proof.
  induction G as [|y G IH]; intros I h []; cbn in I; destruct I as (F & I).
  - subst y. rewrite Forall_forall in F. apply F, in_or_app. right. left. reflexivity.
  - auto.
Qed.

Lemma insert_end g l : (forall h, In h l -> (MediaRead.rg_seq h < MediaRead.rg_seq g)%N) -> MediaRead.insert_pending g l = l ++ [g].
Proof.
  induction l as [|h l IH]; intros F; [reflexivity|]. cbn. rewrite (proj2 (N.ltb_lt _ _) (F h (or_introl eq_refl))), IH; [reflexivity|].
  intros; apply F; right; assumption.
Qed.

Lemma rtop_arrive k G r g : rtop k G r -> increasing (G ++ [g]) ->
  let r' := match MediaRead.rd_cur r with
      | Some c => if (g_seq g <? MediaRead.rg_seq c)%N then r
                  else MediaRead.Rd (MediaRead.rd_cur r) (MediaRead.insert_pending (MediaRead.rg_new (g_seq g)) (MediaRead.rd_pending r)) (MediaRead.rd_max r) (MediaRead.rd_lat r)
      | None => MediaRead.Rd (Some (MediaRead.rg_new (g_seq g))) (MediaRead.rd_pending r) (MediaRead.rd_max r) (MediaRead.rd_lat r)
      end in
  rtop k (G ++ [g]) r'.
Proof.
  intros [A B C] Inc r'.
  assert (Lt : forall x, In x (groups_in r) -> (MediaRead.rg_seq x < g_seq g)%N).
  { intros x Hx. assert (I : In (MediaRead.rg_seq x) (map g_seq G)) by (apply A; apply in_map; exact Hx).
    apply in_map_iff in I. destruct I as (h & <- & Ih). exact (increasing_all G g Inc h Ih). }
  assert (S : seqs r' = seqs r ++ [g_seq g] /\ MediaRead.rd_cur r' <> None).
  { unfold r', seqs, groups_in. unfold groups_in in Lt. destruct (MediaRead.rd_cur r) as [c|].
    - pose proof (Lt c (or_introl eq_refl)) as Lc. destruct (N.ltb_spec (g_seq g) (MediaRead.rg_seq c)); [lia|]. cbn [MediaRead.rd_cur MediaRead.rd_pending].
      rewrite insert_end; [|intros h Hh; apply Lt; right; exact Hh]. rewrite !map_app, app_assoc. split; [reflexivity|discriminate].
    - rewrite (B eq_refl). cbn. split; [reflexivity|discriminate]. }
  destruct S as (S & Nn). constructor.
  - rewrite S, map_app. apply incl_app; [apply incl_appl; exact A|apply incl_appr, incl_refl].
  - intros E. congruence.
  - intros g' E. rewrite last_opt_snoc in E. injection E as <-. rewrite S, last_opt_snoc. reflexivity.
Qed.

Lemma select_top k G gl fuel cutoff r next bufs r' x : rtop k G r -> increasing (G ++ gl) ->
  match next with MediaRead.NGroup q => map g_seq gl = [q] | _ => gl = [] end ->
  MediaRead.select_rest fuel cutoff r next bufs = (r', x) -> rtop k (G ++ gl) r'.
Proof.
  intros T Inc Nx H. unfold MediaRead.select_rest in H. destruct next as [q| | |].
  - destruct gl as [|g [|? ?]]; try discriminate. injection Nx as <-. pose proof (rtop_arrive k G r g T Inc) as R.
    destruct (MediaRead.rd_cur r) as [c|]; [destruct (_ <? _)%N|]; injection H as <- _; exact R.
  - subst gl. rewrite app_nil_r. destruct (MediaRead.buffering fuel cutoff r bufs) as [r1 y] eqn:E. pose proof (buffering_top _ _ _ _ _ _ _ _ T E) as T1.
    destruct y; try (injection H as <- _; exact T1). destruct (MediaRead.rd_cur r1); [injection H as <- _; exact T1|].
    destruct (MediaRead.rd_pending r1); injection H as <- _; exact T1.
  - subst gl. rewrite app_nil_r. injection H as <- _. exact T.
  - subst gl. rewrite app_nil_r. destruct (MediaRead.buffering fuel cutoff r bufs) as [r1 y] eqn:E. pose proof (buffering_top _ _ _ _ _ _ _ _ T E) as T1.
    destruct y; try (injection H as <- _; exact T1). destruct (MediaRead.rd_cur r1); injection H as <- _; exact T1.
Qed.

Lemma poll_top k G gl fuel cur next bufs r r' x : rtop k G r -> increasing (G ++ gl) ->
  match next with MediaRead.NGroup q => map g_seq gl = [q] | _ => gl = [] end ->
  (next <> MediaRead.NWait -> cur = MediaRead.FWait /\ (MediaRead.duration_max <? MediaRead.rd_max r + MediaRead.rd_lat r)%N = false /\ match MediaRead.rd_cur r with Some g => MediaRead.rg_buf g = [] | None => True end) ->
  (forall g, MediaRead.rd_cur r = Some g -> cur = MediaRead.FEnd -> S (N.to_nat (MediaRead.rg_seq g)) < k) ->
  MediaRead.rstep r (MediaRead.RPoll fuel cur next bufs) = (r', x) -> rtop k (G ++ gl) r'.
Proof.
  intros T Inc Nx Nw Fe H. cbn [MediaRead.rstep] in H.
  assert (Z : gl = [] \/ (cur = MediaRead.FWait /\ (MediaRead.duration_max <? MediaRead.rd_max r + MediaRead.rd_lat r)%N = false /\ match MediaRead.rd_cur r with Some g => MediaRead.rg_buf g = [] | None => True end)).
  { destruct next; try (left; exact Nx; fail). right. apply Nw. discriminate. }
  destruct Z as [->|(-> & D & Bf)].
  - rewrite app_nil_r in *. destruct (_ <? _)%N in H; [injection H as <- _; exact T|].
    assert (Sel : MediaRead.select_rest fuel (MediaRead.rd_max r + MediaRead.rd_lat r) r next bufs = (r', x) -> rtop k G r').
    { intros E. rewrite <- (app_nil_r G). eapply select_top; eauto. rewrite app_nil_r. exact Inc. }
    destruct (MediaRead.rd_cur r) as [g|] eqn:Ec; [|exact (Sel H)].
    destruct (MediaRead.rg_buf g) as [|f rest] eqn:Eb.
    + destruct cur as [ts| | |]; [| | |exact (Sel H)].
      * rewrite LiveReadP.rg_frame_eq in H. injection H as <- _. apply (rtop_same k G r); [exact T| |discriminate].
        unfold seqs, groups_in. rewrite Ec. reflexivity.
      * injection H as <- _. specialize (Fe g eq_refl eq_refl). destruct (MediaRead.rd_pending r) as [|h rest] eqn:Ep.
        -- constructor.
           ++ rewrite pop_seqs, Ep. intros ? [].
           ++ apply pop_none.
           ++ intros y Ey. rewrite pop_seqs, Ep. cbn. pose proof (rt_top _ _ _ T y Ey) as Q. unfold seqs, groups_in in Q. rewrite Ec, Ep in Q. cbn in Q. rewrite <- Q. exact Fe.
        -- apply (rtop_suffix k G r _ [MediaRead.rg_seq g]); [exact T| | |apply pop_none].
           ++ rewrite pop_seqs. unfold seqs, groups_in. rewrite Ec. reflexivity.
           ++ rewrite pop_seqs, Ep. discriminate.
      * injection H as <- _. exact T.
    + injection H as <- _. apply (rtop_same k G r); [exact T| |discriminate]. unfold seqs, groups_in. rewrite Ec. reflexivity.
  - rewrite D in H. destruct (MediaRead.rd_cur r) as [g|] eqn:Ec; [rewrite Bf in H|]; eapply select_top; eauto.
Qed.

(** * The whole state *)

Record xinv (s : live) (k : nat) : Prop := {
  x_fin : fin0 (lv_net s) k;
  x_views : forall i v, nth_error (lv_views s) i = Some v ->
    holds (lv_net s) (vw_node v) (vw_cons v) (option_map g_seq (last_opt (vw_groups v))) /\
    owned (lv_net s) (vw_node v) (vw_cons v) = false /\ rtop k (vw_groups v) (vw_reader v);
  x_diff : forall i j v u, nth_error (lv_views s) i = Some v -> nth_error (lv_views s) j = Some u ->
    vw_node v = vw_node u -> vw_cons v = vw_cons u -> i = j }.

Lemma xinv_new : xinv live_new 0.
Proof. constructor; [intros [|j] h; discriminate|intros [|i] v; discriminate|intros [|i] j v u; discriminate]. Qed.

Lemma xinv_net s s' k k' : xinv s k -> k <= k' -> fin0 (lv_net s') k' -> lv_views s' = lv_views s ->
  (forall v p, In v (lv_views s) -> holds (lv_net s) (vw_node v) (vw_cons v) p -> owned (lv_net s) (vw_node v) (vw_cons v) = false ->
     holds (lv_net s') (vw_node v) (vw_cons v) p /\ owned (lv_net s') (vw_node v) (vw_cons v) = false) ->
  xinv s' k'.
Proof.
  intros [X1 X2 X3] L F E Hd. constructor; [exact F| |rewrite E; exact X3].
  intros i v Ev. rewrite E in Ev. destruct (X2 i v Ev) as (A & B & C).
  destruct (Hd v _ (nth_error_In _ _ Ev) A B) as (A' & B'). split; [exact A'|]. split; [exact B'|]. eapply rtop_le; eauto.
Qed.

Definition harmless (o : nop) : Prop := match o with NUse _ (TNext _) | NUse _ (TCDrop _) => False | _ => True end.
Lemma nrun_holds m w ops : Forall harmless ops -> forall n n' tr i c p, nrun m w n ops = (n', tr) -> holds n i c p -> owned n i c = false ->
  holds n' i c p /\ owned n' i c = false.
Proof.
  induction 1 as [|o ops Ho F IH]; intros n n' tr i c p R Hd O; cbn [nrun] in R; [injection R as <- _; auto|].
  destruct (nstep m w n o) as [n1 x] eqn:St. destruct (nrun m w n1 ops) as [n2 tr2] eqn:R2. injection R as <- _.
  destruct (nstep_holds _ _ _ _ _ _ _ _ _ St Hd O) as (A & B); [intros ->; exact Ho|intros ->; exact Ho|]. eapply IH; eauto.
Qed.
Lemma section_harmless n cur j f : Forall harmless (section n cur j f).
Proof. destruct j; cbn [section]; repeat constructor. Qed.
Lemma gone_holds m w s n i c p : holds n i c p -> owned n i c = false ->
  holds (lv_net (gone m w s n)) i c p /\ owned (lv_net (gone m w s n)) i c = false.
Proof.
  intros Hd O. unfold gone. cbn [lv_net]. destruct (nrun m w n _) as [n' tr] eqn:R. cbn [fst]. eapply nrun_holds; [|exact R| |]; auto.
  destruct (lv_cur s); repeat constructor.
Qed.

(** A group that answers that it has ended was finished by the writer. *)
Lemma ended_fin w n H gs v g seen res a : ninv w n H -> weak n H gs -> vinv H gs v seen res -> fin0 n (length gs) ->
  current n v = Some a -> MediaRead.rd_cur (vw_reader v) = Some g -> a = MediaRead.FEnd -> S (N.to_nat (MediaRead.rg_seq g)) < length gs.
Proof.
  intros K (W1 & W2) V F Ec Eg ->. unfold current in Ec. destruct (_ <? _)%N in Ec; [discriminate|]. rewrite Eg in Ec.
  assert (A : answer_of n v (MediaRead.rg_seq g) (MediaRead.rg_index g) = MediaRead.FEnd).
  { destruct (MediaRead.rg_buf g), (answer_of n v (MediaRead.rg_seq g) (MediaRead.rg_index g)); congruence. }
  unfold answer_of in A. destruct (content n v (MediaRead.rg_seq g)) as [h|] eqn:Eh; [|discriminate].
  assert (C : rg_closed h = Some Finished).
  { unfold answer, payload_at in A. destruct (nth_error (rg_frames h) (MediaRead.rg_index g)) as [[size st]|].
    - destruct (fs_closed st) as [[|e]|]; try discriminate. destruct (media_decode _ _); discriminate.
    - destruct (rg_closed h) as [[|e]|]; try discriminate. reflexivity. }
  destruct (content_in _ _ _ _ Eh) as (y & Iy & <- & Ey).
  assert (Ia : In y (accepted (H (vw_node v)))).
  { apply (proj2 (proj2 (given_ok w n H (vw_node v) (vw_cons v) K))). apply (vi_in _ _ _ _ _ V). exact Iy. }
  destruct (vw_node v) as [|i].
  - rewrite (W2 y Ia), Nnat.Nat2N.id. exact (F _ h Ey C).
  - destruct (co_copy _ _ _ (ni_cont _ _ _ K) (S i) y h ltac:(lia) Ia Ey) as (y0 & h0 & I0 & Q & E0 & _ & Fi).
    destruct (Fi C) as ((C0 & _) & _). rewrite <- Q, (W2 y0 I0), Nnat.Nat2N.id. exact (F _ h0 E0 C0).
Qed.

(** Asking for the next group. *)
Lemma next_holds m w n i c p n1 x : nstep m w n (NUse i (TNext c)) = (n1, x) -> holds n i c p -> owned n i c = false ->
  owned n1 i c = false /\
  match next_answer x with
  | None => holds n1 i c p
  | Some (a, gl) => match a with MediaRead.NGroup q => map g_seq gl = [q] /\ holds n1 i c (Some q) | _ => gl = [] /\ holds n1 i c p end
  end.
Proof.
  intros St (t & Et & G) O. cbn [nstep] in St. assert (L : i < length (nt_tracks n)) by (apply nth_error_Some; congruence).
  rewrite (proj2 (Nat.ltb_lt _ _) L) in St. cbn [may_use andb] in St. rewrite O in St. cbn [negb] in St.
  destruct (at_track m i (TNext c) n) as [s1 z] eqn:A. destruct (at_track_eq _ _ _ _ _ _ _ Et A) as (t' & Tt & ->). injection St as <- <-.
  split; [exact O|].
  assert (Hd : forall q, get (ts_cons t') c = Some q -> holds (with_tracks n (set_nth i t' (nt_tracks n))) i c q).
  { intros q E. exists t'. cbn [with_tracks nt_tracks]. split; [apply nth_error_set_eq; exact L|exact E]. }
  cbn [tstep] in Tt. rewrite G in Tt. unfold track_next in Tt.
  assert (Set_ : forall q, get (set_nth c (Some q) (ts_cons t)) c = Some q) by (intros q; eapply get_set_eq; exact G).
  destruct (opt_gt _ _ || _).
  - destruct (ts_closed t) as [[|e]|].
    + injection Tt as <- <-. cbn. split; [reflexivity|]. apply Hd. apply Set_.
    + injection Tt as <- <-. cbn. split; [reflexivity|]. apply Hd. apply Set_.
    + destruct (ts_latest t) as [g|]; injection Tt as <- <-; cbn.
      * split; [reflexivity|]. apply Hd. apply Set_.
      * apply Hd. exact G.
  - injection Tt as <- <-. destruct (tsys_alive t); cbn; (split; [reflexivity|]); apply Hd; apply Set_.
Qed.

Lemma perform_view n v gl o v' y : perform n v gl o = (v', y) ->
  vw_node v' = vw_node v /\ vw_cons v' = vw_cons v /\ vw_groups v' = vw_groups v ++ gl /\
  exists x, MediaRead.rstep (vw_reader v) o = (vw_reader v', x) /\ (y = LWait -> x = MediaRead.RWait).
Proof.
  unfold perform. cbn [vw_reader]. destruct (MediaRead.rstep (vw_reader v) o) as [r x]. intros [= <- <-]. cbn. repeat split; auto.
  exists x. split; [reflexivity|]. destruct x; cbn; try discriminate; [|reflexivity]. destruct (recall _ _ _); discriminate.
Qed.

Lemma poll_view m w n v fuel order n' v' y H gs seen res k : ninv w n H -> weak n H gs -> vinv H gs v seen res -> fin0 n (length gs) -> k = length gs ->
  view_poll m w n v fuel order = (n', (v', y)) -> increasing (vw_groups v') ->
  holds n (vw_node v) (vw_cons v) (option_map g_seq (last_opt (vw_groups v))) -> owned n (vw_node v) (vw_cons v) = false ->
  rtop k (vw_groups v) (vw_reader v) ->
  vw_node v' = vw_node v /\ vw_cons v' = vw_cons v /\ holds n' (vw_node v) (vw_cons v) (option_map g_seq (last_opt (vw_groups v'))) /\
  owned n' (vw_node v) (vw_cons v) = false /\ rtop k (vw_groups v') (vw_reader v') /\
  (n' = n \/ exists x, nstep m w n (NUse (vw_node v) (TNext (vw_cons v))) = (n', x)).
Proof.
  intros K Wk V F -> P Inc Hd O T. unfold view_poll in P. destruct (current n v) as [a|] eqn:Ec.
  - destruct (perform n v [] _) as [v1 y1] eqn:Pf. injection P as <- <- <-.
    destruct (perform_view _ _ _ _ _ _ Pf) as (A1 & A2 & A3 & x & A4 & _). rewrite A3, app_nil_r in *.
    split; [exact A1|]. split; [exact A2|]. split; [exact Hd|]. split; [exact O|]. split; [|left; reflexivity].
    rewrite <- (app_nil_r (vw_groups v)). eapply (poll_top _ _ [] fuel a MediaRead.NWait [] (vw_reader v)); [exact T| |reflexivity| | |exact A4].
    + rewrite app_nil_r. exact Inc.
    + congruence.
    + intros g Eg Ea. eapply ended_fin; eauto.
  - destruct (nstep m w n (NUse (vw_node v) (TNext (vw_cons v)))) as [n1 x] eqn:St.
    destruct (next_holds _ _ _ _ _ _ _ _ St Hd O) as (O1 & Nx).
    destruct (next_answer x) as [[a gl]|]; [|injection P as <- <- <-; eauto 10].
    destruct (perform n1 v gl _) as [v1 y1] eqn:Pf. injection P as <- <- <-.
    destruct (perform_view _ _ _ _ _ _ Pf) as (A1 & A2 & A3 & z & A4 & _).
    split; [exact A1|]. split; [exact A2|].
    assert (Gl : match a with MediaRead.NGroup q => map g_seq gl = [q] | _ => gl = [] end) by (destruct a; apply Nx).
    split; [|split; [exact O1|split; [|eauto]]].
    + rewrite A3. destruct a as [q| | |]; destruct Nx as (N1 & N2); [|subst gl; rewrite app_nil_r; exact N2..].
      destruct gl as [|g [|? ?]]; try discriminate. injection N1 as <-. rewrite last_opt_snoc. exact N2.
    + rewrite A3 in *. destruct (current_none n v Ec) as (Cd & Cb). eapply (poll_top _ _ gl fuel MediaRead.FWait a _ (vw_reader v)); [exact T|exact Inc|exact Gl| | |exact A4].
      * intros _. auto.
      * discriminate.
Qed.

Lemma add_media_length gs f : length gs <= length (add_media gs f).
Proof.
  destruct gs as [|l pre _] using rev_ind; [cbn; lia|]. destruct (mf_key f) eqn:Kf.
  - rewrite add_media_key, !app_length by exact Kf. lia.
  - rewrite add_media_delta, !app_length by exact Kf. cbn. lia.
Qed.
Lemma written_le tr e : length (media_groups (lwritten tr)) <= length (media_groups (lwritten (tr ++ [e]))).
Proof.
  rewrite lwritten_snoc. assert (E : lwritten [e] = [] \/ exists f, lwritten [e] = [f]).
  { destruct e as [[] []]; cbn; eauto. }
  destruct E as [->|(f & ->)]; [rewrite app_nil_r; lia|]. rewrite media_groups_snoc. apply add_media_length.
Qed.

Lemma fin0_outside m w n H o n' x k : ninv w n H -> outside o = true -> nstep m w n o = (n', x) -> fin0 n k -> fin0 n' k.
Proof.
  intros K O St F. destruct (ninv_pos _ _ _ K) as (Lg & Lt). destruct (outside_same _ _ _ _ _ _ O Lg Lt St) as ([S1 _] & _). eapply fin0_same; eauto.
Qed.

Lemma xinv_step m w s o s' x tr H H' : (62 <= w)%N -> lmodest o -> linv w s tr H -> lstep m w s o = (s', x) -> linv w s' (tr ++ [(o, x)]) H' ->
  xinv s (length (media_groups (lwritten tr))) -> xinv s' (length (media_groups (lwritten (tr ++ [(o, x)])))).
Proof.
  intros W M L St L' X. pose proof (written_le tr (o, x)) as Le. set (k := length (media_groups (lwritten tr))) in *. set (k' := length (media_groups (lwritten (tr ++ [(o, x)])))) in *.
  assert (Same : s' = s -> xinv s' k').
  { intros ->. eapply xinv_net; eauto. eapply fin0_le; [apply X|exact Le]. }
  assert (Fk : fin0 (lv_net s) k') by (eapply fin0_le; [apply X|exact Le]).
  destruct (ninv_pos _ _ _ (li_net _ _ _ _ L)) as (Lg & Lt).
  destruct o as [f| | |o|i p|v d|v fuel order]; cbn [lstep] in St.
  - destruct (lv_job s); [injection St as <- <-; apply Same; reflexivity|]. destruct (lv_gone s); [injection St as <- <-; apply Same; reflexivity|].
    destruct (media_header (mf_ts f)).
    + injection St as <- <-. eapply xinv_net; eauto.
    + injection St as <- <-. eapply xinv_net; eauto; [eapply fin0_gone; eauto|]. intros; apply gone_holds; assumption.
  - destruct (lv_job s) as [[j f]|] eqn:Ej; [|injection St as <- <-; apply Same; reflexivity].
    assert (Eg : lv_gone s = false). { destruct (lv_gone s) eqn:Eg; [|reflexivity]. pose proof (li_gone _ _ _ _ L Eg). congruence. }
    pose proof (li_strong _ _ _ _ L Eg) as Sg. rewrite Ej in Sg.
    destruct (nrun m w (lv_net s) _) as [n ntr] eqn:R.
    assert (Fn : fin0 n k') by (eapply fin0_le; [eapply fin0_section; eauto; try apply X; apply L|exact Le]).
    assert (Ln : 0 < length (nt_groups n)).
    { destruct (section_ok m w _ H _ _ _ _ _ _ W (li_net _ _ _ _ L) (li_weak _ _ _ _ L) Sg R) as (H1 & A & _). apply (ninv_pos _ _ _ A). }
    destruct (forallb _ ntr).
    + destruct (after _ _ _ _) as [cur job]. injection St as <- <-. eapply xinv_net; eauto. intros v p Iv A B. exact (nrun_holds m w _ (section_harmless _ _ _ _) _ _ _ _ _ _ R A B).
    + injection St as <- <-. eapply xinv_net; eauto; [eapply fin0_gone; eauto|]. intros v p Iv A B.
      destruct (nrun_holds m w _ (section_harmless _ _ _ _) _ _ _ _ _ _ R A B) as (A1 & B1). apply gone_holds; assumption.
  - destruct (lv_job s); [injection St as <- <-; apply Same; reflexivity|]. destruct (lv_gone s); [injection St as <- <-; apply Same; reflexivity|].
    injection St as <- <-. eapply xinv_net; eauto; [eapply fin0_gone; eauto|]. intros; apply gone_holds; assumption.
  - destruct (Live.allowed s o) eqn:Al; [|injection St as <- <-; apply Same; reflexivity].
    destruct (allowed_outside s o Al) as (O & _). destruct (nstep m w (lv_net s) o) as [n y] eqn:Sn. injection St as <- <-. cbn [fst].
    eapply xinv_net; eauto; cbn [with_net lv_net].
    + eapply fin0_outside; eauto. apply L.
    + intros v p Iv A B.
      assert (Ex : existsb (fun u => Nat.eqb (vw_node u) (vw_node v) && Nat.eqb (vw_cons u) (vw_cons v)) (lv_views s) = true).
      { apply existsb_exists. exists v. rewrite !Nat.eqb_refl. auto. }
      eapply nstep_holds; eauto; intros ->; cbn in Al; rewrite Ex in Al; discriminate.
  - destruct (nth_error (nt_tracks (lv_net s)) i) as [t|] eqn:Et; [|injection St as <- <-; apply Same; reflexivity].
    destruct (nstep m w (lv_net s) (NUse i (TConsume p))) as [n y] eqn:Sn.
    assert (Fn : fin0 n k') by (eapply fin0_outside; eauto; [apply L|destruct i; reflexivity]).
    assert (Hd : forall v p0, In v (lv_views s) -> holds (lv_net s) (vw_node v) (vw_cons v) p0 -> owned (lv_net s) (vw_node v) (vw_cons v) = false ->
       holds n (vw_node v) (vw_cons v) p0 /\ owned n (vw_node v) (vw_cons v) = false).
    { intros v p0 _ A B. eapply nstep_holds; eauto; discriminate. }
    assert (Bad : (with_net s n, LBad) = (s', x) -> xinv s' k') by (intros E; injection E as <- <-; eapply xinv_net; eauto).
    pose proof Sn as Sn'. cbn [nstep] in Sn. destruct (Nat.ltb i (length (nt_tracks (lv_net s))) && may_use (lv_net s) i (TConsume p)) eqn:Bo.
    2: { injection Sn as <- <-. exact (Bad St). }
    destruct (at_track m i (TConsume p) (lv_net s)) as [s1 z] eqn:At. destruct (at_track_eq _ _ _ _ _ _ _ Et At) as (t' & Tt & ->). injection Sn as <- <-.
    cbn [no_did] in St. destruct z; try exact (Bad St). injection St as <- <-.
    cbn [tstep] in Tt. destruct (idle t p); [|discriminate]. injection Tt as <-.
    assert (Li : i < length (nt_tracks (lv_net s))) by (apply nth_error_Some; congruence).
    constructor; cbn [with_views lv_net lv_views]; [exact Fn| |].
    + intros j v Ev. destruct (Nat.lt_ge_cases j (length (lv_views s))) as [Lj|Lj].
      * rewrite nth_error_app1 in Ev by exact Lj. destruct (x_views _ _ X j v Ev) as (A & B & C).
        destruct (Hd v _ (nth_error_In _ _ Ev) A B). repeat split; auto; eapply rtop_le; eauto.
      * rewrite nth_error_app2 in Ev by exact Lj. destruct (j - length (lv_views s)) as [|[|e]]; try discriminate. injection Ev as <-. cbn [vw_node vw_cons vw_groups vw_reader].
        split; [|split].
        -- eexists. cbn [with_tracks nt_tracks]. split; [apply nth_error_set_eq; exact Li|]. cbn. rewrite get_app, Nat.eqb_refl. reflexivity.
        -- change (owned (lv_net s) i (length (ts_cons t)) = false). destruct (owned (lv_net s) i (length (ts_cons t))) eqn:Ow; [|reflexivity]. exfalso.
           rewrite owned_eq in Ow. apply existsb_exists in Ow. destruct Ow as (ln & Il & Q). unfold ends_at in Q. apply andb_true_iff in Q. destruct Q as (Q1 & Q2).
           apply Nat.eqb_eq in Q1, Q2. apply In_nth_error in Il. destruct Il as (l & El).
           pose proof (lk_cons _ _ _ (ni_links _ _ _ (li_net _ _ _ _ L) l ln El)) as Lc. rewrite Q1, Q2 in Lc.
           pose proof (ti_readers _ _ (tk_inv _ _ (ni_tracks _ _ _ (li_net _ _ _ _ L)) i t Et)) as Fr. apply Forall2_length in Fr. lia.
        -- apply rtop_new.
    + assert (New : forall j v, nth_error (lv_views s) j = Some v -> vw_node v = i -> vw_cons v = length (ts_cons t) -> False).
      { intros j v Ev En Ec. destruct (x_views _ _ X j v Ev) as ((u & Eu & G) & _). rewrite En, Et in Eu. injection Eu as <-. apply get_lt in G. lia. }
      intros a b v u Ea Eb En Ec. destruct (Nat.lt_ge_cases a (length (lv_views s))) as [La|La], (Nat.lt_ge_cases b (length (lv_views s))) as [Lb|Lb].
      * rewrite nth_error_app1 in Ea, Eb by assumption. exact (x_diff _ _ X a b v u Ea Eb En Ec).
      * rewrite nth_error_app1 in Ea by assumption. rewrite nth_error_app2 in Eb by assumption. destruct (b - length (lv_views s)) as [|[|e]]; try discriminate.
        injection Eb as <-. exfalso. exact (New a v Ea En Ec).
      * rewrite nth_error_app2 in Ea by assumption. rewrite nth_error_app1 in Eb by assumption. destruct (a - length (lv_views s)) as [|[|e]]; try discriminate.
        injection Ea as <-. exfalso. exact (New b u Eb (eq_sym En) (eq_sym Ec)).
      * rewrite nth_error_app2 in Ea, Eb by assumption.
        destruct (a - length (lv_views s)) as [|[|e]] eqn:Da; try discriminate. destruct (b - length (lv_views s)) as [|[|e]] eqn:Db; try discriminate. lia.
  - destruct (nth_error (lv_views s) v) as [vw|] eqn:Ev; [|injection St as <- <-; apply Same; reflexivity].
    destruct (perform (lv_net s) vw [] (MediaRead.RLatency d)) as [vw' y] eqn:Pf. injection St as <- <-.
    destruct (perform_view _ _ _ _ _ _ Pf) as (A1 & A2 & A3 & z & A4 & _). rewrite app_nil_r in A3. cbn in A4. injection A4 as A4 _.
    assert (Lv : v < length (lv_views s)) by (apply nth_error_Some; congruence).
    constructor; cbn [with_views lv_net lv_views]; [exact Fk| |].
    + intros j u Eu. destruct (Nat.eq_dec v j) as [<-|N].
      * rewrite nth_error_set_eq in Eu by exact Lv. injection Eu as <-. rewrite A1, A2, A3. destruct (x_views _ _ X v vw Ev) as (B1 & B2 & B3).
        split; [exact B1|]. split; [exact B2|]. apply (rtop_le k); [|exact Le]. apply (rtop_same k _ (vw_reader vw)); [exact B3|rewrite <- A4; reflexivity|].
        rewrite <- A4. cbn. apply (rt_none _ _ _ B3).
      * rewrite nth_error_set_ne in Eu by exact N. destruct (x_views _ _ X j u Eu) as (B1 & B2 & B3). repeat split; auto; eapply rtop_le; eauto.
    + assert (Old : forall j u, nth_error (set_nth v vw' (lv_views s)) j = Some u -> exists u', nth_error (lv_views s) j = Some u' /\ vw_node u' = vw_node u /\ vw_cons u' = vw_cons u).
      { intros j u Eu. destruct (Nat.eq_dec v j) as [<-|N].
        - rewrite nth_error_set_eq in Eu by exact Lv. injection Eu as <-. eauto.
        - rewrite nth_error_set_ne in Eu by exact N. eauto. }
      intros a b u1 u2 Ea Eb En Ec. destruct (Old _ _ Ea) as (w1 & Fa & P1 & P2), (Old _ _ Eb) as (w2 & Fb & P3 & P4).
      eapply (x_diff _ _ X); eauto; congruence.
  - destruct (nth_error (lv_views s) v) as [vw|] eqn:Ev; [|injection St as <- <-; apply Same; reflexivity].
    destruct (view_poll m w (lv_net s) vw fuel order) as [n [vw' y]] eqn:Vp. injection St as <- <-.
    assert (Lv : v < length (lv_views s)) by (apply nth_error_Some; congruence).
    assert (Inc : increasing (vw_groups vw')).
    { pose proof (li_views _ _ _ _ L' v vw') as V'. cbn [with_views lv_views] in V'. rewrite nth_error_set_eq in V' by exact Lv. apply (V' eq_refl). }
    destruct (x_views _ _ X v vw Ev) as (B1 & B2 & B3).
    destruct (poll_view _ _ _ _ _ _ _ _ _ _ _ _ _ k (li_net _ _ _ _ L) (li_weak _ _ _ _ L) (li_views _ _ _ _ L v vw Ev) (x_fin _ _ X) eq_refl Vp Inc B1 B2 B3)
      as (A1 & A2 & A3 & A4 & A5 & A6).
    assert (Fn : fin0 n k').
    { destruct A6 as [->|(z & A6)]; [exact Fk|]. eapply fin0_outside; eauto; [apply L|]. destruct (vw_node vw); reflexivity. }
    constructor; cbn [with_views lv_net lv_views]; [exact Fn| |].
    + intros j u Eu. destruct (Nat.eq_dec v j) as [<-|N].
      * rewrite nth_error_set_eq in Eu by exact Lv. injection Eu as <-. rewrite A1, A2. split; [exact A3|]. split; [exact A4|]. eapply rtop_le; eauto.
      * rewrite nth_error_set_ne in Eu by exact N. destruct (x_views _ _ X j u Eu) as (C1 & C2 & C3).
        assert (Hd : holds n (vw_node u) (vw_cons u) (option_map g_seq (last_opt (vw_groups u))) /\ owned n (vw_node u) (vw_cons u) = false).
        { destruct A6 as [->|(z & A6)]; [auto|]. eapply nstep_holds; eauto; [|discriminate].
          intros [= E1 E2]. apply N. eapply (x_diff _ _ X); eauto. }
        destruct Hd. repeat split; auto; eapply rtop_le; eauto.
    + assert (Old : forall j u, nth_error (set_nth v vw' (lv_views s)) j = Some u -> exists u', nth_error (lv_views s) j = Some u' /\ vw_node u' = vw_node u /\ vw_cons u' = vw_cons u).
      { intros j u Eu. destruct (Nat.eq_dec v j) as [<-|N].
        - rewrite nth_error_set_eq in Eu by exact Lv. injection Eu as <-. eauto.
        - rewrite nth_error_set_ne in Eu by exact N. eauto. }
      intros a b u1 u2 Ea Eb En Ec. destruct (Old _ _ Ea) as (w1 & Fa & P1 & P2), (Old _ _ Eb) as (w2 & Fb & P3 & P4).
      eapply (x_diff _ _ X); eauto; congruence.
Qed.

Lemma xinv_run m w ops : (62 <= w)%N -> Forall lmodest ops ->
  xinv (fst (lrun m w live_new ops)) (length (media_groups (lwritten (snd (lrun m w live_new ops))))).
Proof.
  intros W. induction ops as [|o ops IH] using rev_ind; intros M; [exact xinv_new|].
  pose proof M as M0. apply Forall_app in M. destruct M as (M1 & M2). specialize (IH M1).
  destruct (linv_run m w ops W M1) as (H & L). destruct (linv_run m w (ops ++ [o]) W M0) as (H' & L').
  rewrite lrun_snoc in *. destruct (lrun m w live_new ops) as [s tr]. destruct (lstep m w s o) as [s' x] eqn:St. cbn [fst snd] in *.
  eapply xinv_step; eauto. exact (Forall_inv M2).
Qed.

(** * A poll that has to wait *)

Lemma current_waits n v a fuel bufs r x : current n v = Some a -> MediaRead.rstep (vw_reader v) (MediaRead.RPoll fuel a MediaRead.NWait bufs) = (r, x) -> x <> MediaRead.RWait.
Proof.
  unfold current. intros E St. cbn [MediaRead.rstep] in St. destruct (_ <? _)%N; [injection St as _ <-; discriminate|].
  destruct (MediaRead.rd_cur (vw_reader v)) as [g|]; [|discriminate]. destruct (MediaRead.rg_buf g); [|injection St as _ <-; discriminate].
  assert (N : a <> MediaRead.FWait) by (destruct (answer_of n v _ _); congruence).
  destruct a; [rewrite LiveReadP.rg_frame_eq in St| | |congruence]; injection St as _ <-; discriminate.
Qed.

Lemma select_fails fuel cutoff r q bufs r' x : MediaRead.select_rest fuel cutoff r q bufs = (r', x) -> x = MediaRead.RWait -> q = MediaRead.NEnd \/ q = MediaRead.NWait.
Proof.
  unfold MediaRead.select_rest. intros H ->. destruct q; auto; [destruct (MediaRead.rd_cur r); [destruct (_ <? _)%N|]|]; discriminate.
Qed.

Lemma idle_waits fuel q bufs r r' : (MediaRead.duration_max <? MediaRead.rd_max r + MediaRead.rd_lat r)%N = false ->
  match MediaRead.rd_cur r with Some g => MediaRead.rg_buf g = [] | None => True end ->
  MediaRead.rstep r (MediaRead.RPoll fuel MediaRead.FWait q bufs) = (r', MediaRead.RWait) -> q = MediaRead.NEnd \/ q = MediaRead.NWait.
Proof.
  intros D C H. cbn [MediaRead.rstep] in H. rewrite D in H. destruct (MediaRead.rd_cur r) as [g|]; [rewrite C in H|]; exact (select_fails _ _ _ _ _ _ _ H eq_refl).
Qed.

(** It had been given the newest group. *)
Lemma wait_newest m w n v fuel order n' v' t p g : view_poll m w n v fuel order = (n', (v', LWait)) ->
  nth_error (nt_tracks n) (vw_node v) = Some t -> ts_closed t = None -> ts_latest t = Some g ->
  holds n (vw_node v) (vw_cons v) p -> owned n (vw_node v) (vw_cons v) = false ->
  current n v = None /\ exists q, p = Some q /\ (g_seq g <= q)%N.
Proof.
  intros P Et Tc Tl (t0 & E0 & G) O. rewrite Et in E0. injection E0 as <-. unfold view_poll in P. destruct (current n v) as [a|] eqn:Ec.
  - destruct (perform n v [] _) as [v1 y1] eqn:Pf. injection P as <- <- ->. destruct (perform_view _ _ _ _ _ _ Pf) as (_ & _ & _ & x & St & X).
    exfalso. exact (current_waits _ _ _ _ _ _ _ Ec St (X eq_refl)).
  - split; [reflexivity|]. destruct (current_none n v Ec) as (Cd & Cb). destruct (nstep m w n _) as [n1 x] eqn:St.
    destruct (next_answer x) as [[a gl]|] eqn:Na; [|discriminate].
    destruct (perform n1 v gl _) as [v1 y1] eqn:Pf. injection P as <- <- ->. destruct (perform_view _ _ _ _ _ _ Pf) as (_ & _ & _ & z & Sr & Z).
    rewrite (Z eq_refl) in Sr. pose proof (idle_waits _ _ _ _ _ Cd Cb Sr) as Q.
    cbn [nstep] in St. assert (L : vw_node v < length (nt_tracks n)) by (apply nth_error_Some; congruence).
    rewrite (proj2 (Nat.ltb_lt _ _) L) in St. cbn [may_use andb] in St. rewrite O in St. cbn [negb] in St.
    destruct (at_track m (vw_node v) _ n) as [s1 y] eqn:A. destruct (at_track_eq _ _ _ _ _ _ _ Et A) as (t' & Tt & ->). injection St as <- <-.
    cbn [tstep] in Tt. rewrite G in Tt. unfold track_next in Tt. rewrite Tc, Tl in Tt. cbn [option_map opt_gt] in Tt. rewrite orb_false_r in Tt.
    destruct p as [q|].
    + exists q. split; [reflexivity|]. destruct (N.ltb_spec q (g_seq g)) as [Lt|Ge]; [|exact Ge]. injection Tt as <- <-.
      cbn in Na. injection Na as <- _. destruct Q; discriminate.
    + injection Tt as <- <-. cbn in Na. injection Na as <- _. destruct Q; discriminate.
Qed.

Lemma increasing_same l : increasing l -> forall a b, In a l -> In b l -> g_seq a = g_seq b -> a = b.
Proof.
  induction l as [|x l IH]; intros I a b [] Hb E; cbn in I; destruct I as (F & I); rewrite Forall_forall in F.
  - subst x. destruct Hb as [->|Hb]; [reflexivity|]. specialize (F b Hb). cbn beta in F. lia.
  - destruct Hb as [->|Hb]; [specialize (F a H); cbn beta in F; lia|auto].
Qed.
Lemma NoDup_map_same {A B} (f : A -> B) l : NoDup (map f l) -> forall a b, In a l -> In b l -> f a = f b -> a = b.
Proof.
  induction l as [|x l IH]; intros N a b [] Hb E; cbn in N; inversion N as [|? ? N1 N2]; subst.
  - destruct Hb as [->|Hb]; [reflexivity|]. exfalso. apply N1. rewrite E. apply in_map. exact Hb.
  - destruct Hb as [->|Hb]; [exfalso; apply N1; rewrite <- E; apply in_map; assumption|auto].
Qed.

Lemma id_same w n H i a b : ninv w n H -> ids (accepted (H 0)) -> In a (accepted (H i)) -> In b (accepted (H i)) -> g_id a = g_id b -> a = b.
Proof.
  intros K Ids Ia Ib E. destruct i as [|i].
  - apply (increasing_same _ (proj1 (given_ok w n H 0 0 K))); auto. rewrite (Ids a Ia), (Ids b Ib), E. reflexivity.
  - eapply NoDup_map_same; eauto. rewrite (co_ids _ _ _ (ni_cont _ _ _ K) (S i)) by lia. apply seq_NoDup.
Qed.

Lemma written_at w n H i g : ninv w n H -> In g (accepted (H i)) -> exists h, nth_error (nth i (nt_groups n) []) (g_id g) = Some h.
Proof.
  intros K Ig. assert (L : g_id g < length (nth i (nt_groups n) [])).
  { destruct (ni_cont _ _ _ K) as [C1 C2 _ _]. destruct i as [|i].
    - rewrite Forall_forall in C1. exact (C1 g Ig).
    - apply (in_map g_id) in Ig. rewrite (C2 (S i)) in Ig by lia. apply in_seq in Ig. lia. }
  destruct (nth_error _ (g_id g)) as [h|] eqn:E; [eauto|]. apply nth_error_None in E. lia.
Qed.

Lemma waits m w ops v fuel order i gs : (62 <= w)%N -> Forall lmodest ops ->
  let s := fst (lrun m w live_new ops) in let tr := snd (lrun m w live_new ops) in
  cut_at_keyframes (lwritten tr) gs -> views_at s v i -> reached s i gs -> ~ In LHang (results v tr) ->
  snd (lstep m w s (LPoll v fuel order)) = LWait -> up_to_date v tr.
Proof.
  intros W M s tr Cut (vw & Ev & En) (t & g & h & fs & Et & Tl & Tc & Lg & Eg & Eh & Lf & Fin & Oth) NH P.
  destruct (linv_run m w ops W M) as (H & L). pose proof (xinv_run m w ops W M) as X. fold s in L, X. fold tr in L, X.
  rewrite <- (cut_unique _ _ _ Cut (media_groups_cut (lwritten tr))) in *.
  pose proof (li_net _ _ _ _ L) as K. pose proof (li_weak _ _ _ _ L) as Wk. pose proof (li_ranged _ _ _ _ L) as R.
  pose proof (li_views _ _ _ _ L v vw Ev) as V.
  rewrite <- (cut_unique _ _ _ Cut (media_groups_cut (lwritten tr))) in *.
  cbn [lstep] in P. rewrite Ev in P. destruct (view_poll m w (lv_net s) vw fuel order) as [n' [vw' y]] eqn:Vp. cbn [snd] in P. subst y.
  destruct (x_views _ _ X v vw Ev) as (Hd & Ow & T). rewrite <- En in *.
  destruct (wait_newest _ _ _ _ _ _ _ _ _ _ _ Vp Et Tc Tl Hd Ow) as (Ec & q & Eq & Le).
  destruct (last_opt (vw_groups vw)) as [z|] eqn:Ez; [|discriminate]. cbn in Eq. injection Eq as Eq.
  pose proof (tk_inv _ _ (ni_tracks _ _ _ K) _ t Et) as Ti.
  assert (Acc : forall y, In y (vw_groups vw) -> In y (accepted (H (vw_node vw)))).
  { intros y Iy. apply (proj2 (proj2 (given_ok w _ H (vw_node vw) (vw_cons vw) K))). apply (vi_in _ _ _ _ _ V). exact Iy. }
  destruct (increasing_last _ _ (vi_inc _ _ _ _ _ V) Ez) as (Iz & _).
  rewrite (ti_latest _ _ Ti) in Tl. destruct (increasing_last _ _ (ti_inc _ _ Ti) Tl) as (Ig & Fg). rewrite Forall_forall in Fg.
  pose proof (Fg z (Acc z Iz)) as Lz. cbn beta in Lz.
  assert (Gz : g_seq z = g_seq g) by lia.
  pose proof (rt_top _ _ _ T z Ez) as Tt. destruct (last_opt (seqs (vw_reader vw))) as [q'|] eqn:Es; [|rewrite Gz in Tt; lia].
  destruct (MediaRead.rd_cur (vw_reader vw)) as [c|] eqn:Rc.
  2: { exfalso. unfold seqs, groups_in in Es. rewrite Rc, (rt_none _ _ _ T Rc) in Es. discriminate. }
  (* its current group is the newest *)
  unfold current in Ec. destruct (_ <? _)%N in Ec; [discriminate|]. rewrite Rc in Ec.
  destruct (MediaRead.rg_buf c) as [|? ?] eqn:Bc; [|discriminate].
  assert (An : answer_of (lv_net s) vw (MediaRead.rg_seq c) (MediaRead.rg_index c) = MediaRead.FWait) by (destruct (answer_of _ _ _ _); congruence).
  assert (Ic : In (MediaRead.rg_seq c) (map g_seq (vw_groups vw))).
  { apply (rt_in _ _ _ T). unfold seqs, groups_in. rewrite Rc. left. reflexivity. }
  apply in_map_iff in Ic. destruct Ic as (y & Qy & Iy).
  assert (Cn : exists hc, content (lv_net s) vw (MediaRead.rg_seq c) = Some hc).
  { unfold content. destruct (find _ (vw_groups vw)) as [y0|] eqn:Fy.
    - apply find_some in Fy. destruct (written_at _ _ _ _ y0 K (Acc _ (proj1 Fy))) as (hc & E). eauto.
    - exfalso. pose proof (find_none _ _ Fy y Iy) as E. cbn beta in E. rewrite Qy, N.eqb_refl in E. discriminate. }
  destruct Cn as (hc & Cn). unfold answer_of in An. rewrite Cn in An. destruct (content_in _ _ _ _ Cn) as (yc & Iyc & Qyc & Ehc).
  assert (Ns : ~ settled hc).
  { intros (S1 & S2). unfold answer, payload_at in An. destruct (nth_error (rg_frames hc) (MediaRead.rg_index c)) as [[size st]|] eqn:Ef.
    - rewrite Forall_forall in S2. specialize (S2 _ (nth_error_In _ _ Ef)). cbn in S2. destruct (fs_closed st) as [[|e]|]; [|discriminate|congruence].
      destruct (media_decode _ _); discriminate.
    - destruct (rg_closed hc) as [[|e]|]; [discriminate|discriminate|congruence]. }
  assert (yc = g) as ->.
  { destruct (Nat.eq_dec (g_id yc) (g_id g)) as [E|N]; [|exfalso; apply Ns; exact (Oth _ _ Ehc N)].
    exact (id_same w _ H _ _ _ K (proj2 Wk) (Acc _ Iyc) Ig E). }
  rewrite Eh in Ehc. injection Ehc as <-.
  (* all of it was read *)
  assert (Ix : length fs <= MediaRead.rg_index c).
  { destruct (Nat.lt_ge_cases (MediaRead.rg_index c) (length fs)) as [Lt|Ge]; [|exact Ge]. exfalso.
    destruct (nth_error (rg_frames h) (MediaRead.rg_index c)) as [[size st]|] eqn:Ef; [|apply nth_error_None in Ef; lia].
    rewrite Forall_forall in Fin. pose proof (Fin _ (nth_error_In _ _ Ef)) as Cl. cbn in Cl.
    destruct (complete w _ H gs (vw_node vw) g h (MediaRead.rg_index c) size (concat (fs_chunks st)) K Wk R Ig Eh) as (gr & fr & _ & _ & Rf & Eb).
    { rewrite frames_seen, nth_error_map, Ef. cbn. unfold NetP.seen. cbn. rewrite Cl. reflexivity. }
    unfold answer, payload_at in An. rewrite Ef, Cl, Eb, (decodes fr _ Rf) in An. discriminate. }
  assert (Lfs : length fs <> 0).
  { destruct Cut as (_ & Ne & _). rewrite Forall_forall in Ne. destruct (Ne fs (nth_error_In _ _ Eg)) as (f & rest & -> & _). discriminate. }
  destruct (vi_run _ _ _ _ _ V) as (rops & rtr & Rr & Ra & Rp & Rh).
  assert (I : MediaReadP.rinv (vw_reader vw) rtr).
  { eapply MediaReadP.rinv_run; [exact Rr| |].
    - rewrite Ra. apply increasing_seqs_map. exact (vi_inc _ _ _ _ _ V).
    - intros J. exact (NH (Rh J)). }
  pose proof (MediaReadP.ri_cur _ _ I) as Cu. rewrite Rc in Cu. destruct Cu as ((k & (Ck & _) & La) & _). rewrite Bc in Ck. cbn in Ck.
  unfold MediaReadP.last_is in La. destruct (rev (MediaReadSpec.played rtr)) as [|f r] eqn:Er; [lia|]. destruct La as [(_ & ?)|(Sf & Kf)]; [lia|].
  assert (Ep : MediaReadSpec.played rtr = rev r ++ [f]) by (rewrite <- (rev_involutive (MediaReadSpec.played rtr)), Er; reflexivity).
  rewrite Ep, map_app in Rp. cbn [map] in Rp.
  destruct (shown v tr) as [|e pre _] eqn:Esh using rev_ind. { destruct (map _ (rev r)) in Rp; discriminate. }
  rewrite map_app in Rp. cbn [map] in Rp. apply app_inj_tail in Rp. destruct Rp as (_ & Rp).
  pose proof (vi_seen _ _ _ _ _ V) as Fs. rewrite ?Esh in Fs. apply Forall_app in Fs. destruct Fs as (_ & Fs). apply Forall_inv in Fs.
  destruct Fs as (gr & f0 & Egr & Ef0 & Se). rewrite <- Rp in Egr, Ef0, Se. cbn [fst snd] in Egr, Ef0, Se.
  rewrite Sf, <- Qyc, Eg in Egr. injection Egr as <-.
  assert (Lk : MediaRead.rf_idx f < length fs) by (apply nth_error_Some; congruence).
  assert (Ek : S (MediaRead.rf_idx f) = length fs) by lia.
  destruct (nth_error_split _ _ Ef0) as (a & b & Efs & La2). destruct b as [|? ?].
  2: { exfalso. rewrite Efs, app_length in Ek. cbn in Ek. lia. }
  destruct (nth_error_split _ _ Eg) as (ga & gb & Egs & Lga). destruct gb as [|? ?].
  2: { exfalso. rewrite Egs, app_length in Lg. cbn in Lg. lia. }
  exists pre, (g_seq g), (MediaRead.rf_idx f), f0, (concat ga ++ a). split.
  - rewrite Esh. destruct e as [pl mf]. cbn [fst snd] in Rp, Se. rewrite <- Rp, Se, Sf, <- Qyc. reflexivity.
  - destruct Cut as (C & _). rewrite <- C, Egs, Efs, concat_app. cbn. rewrite app_nil_r, app_assoc. reflexivity.
Qed.
