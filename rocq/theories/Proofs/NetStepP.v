(** The tree of copies: every operation keeps the invariants. *)
From Coq Require Import NArith ZArith List Lia Bool Arith.
From Coq Require Import Init.Byte Strings.Byte.
From Coq Require Import ZifyBool ZifyNat ZifyN.
From Verif.Model Require Import Base Coding Message ErrorCode Stream Frame FrameSys TrackSys Publisher Transfer Net.
From Verif.Spec Require Import CodingSpec MessageSpec StreamSpec TrackSpec TransferSpec NetSpec.
From Verif.Proofs Require Import BaseP TableP TrackP TransferP RelayP NetP NetSysP.
Import ListNotations.
Open Scope nat_scope.

Definition quiet_ev (e : tevent) : Prop :=
  accept_of e = [] /\ (forall G, twatch G e = G) /\ (forall v, tclosing v e = v).
Lemma passes_quiet i G e l ln : quiet_ev e -> passes i G e l ln.
Proof. intros (Q1 & Q2 & Q3). split; [intros _; rewrite Q2; reflexivity|auto]. Qed.

(** Producer 1 of a track survives these. *)
Definition spares1 (o : top) : bool :=
  match o with
  | TNext _ | TClosed _ | TCClone _ | TCDrop _ | TConsume _ | TInsert _ _ => true
  | TFinish p | TAbort p _ => Nat.eqb p 0
  | _ => false
  end.
Lemma spared m t o t' x : spares1 o = true -> tstep m t o = (t', x) -> get (ts_prods t') 1 = get (ts_prods t) 1.
Proof.
  unfold spares1, tstep. destruct o as [p g|p|p id|p|p e|p|p|p| |p|c|c|c|c]; try discriminate; intros S H.
  - destruct (idle t p); [|injection H as <- _; reflexivity].
    destruct (track_insert g (ts_latest t) (ts_closed t)) as [[b l]|]; injection H as <- _; reflexivity.
  - apply Nat.eqb_eq in S. subst. destruct (idle t 0); injection H as <- _; [|reflexivity].
    destruct (ts_prods t) as [|a [|b r]] eqn:Ep; cbn; rewrite ?Ep; reflexivity.
  - apply Nat.eqb_eq in S. subst. destruct (idle t 0); injection H as <- _; [|reflexivity].
    destruct (ts_prods t) as [|a [|b r]] eqn:Ep; cbn; rewrite ?Ep; reflexivity.
  - destruct (idle t p); injection H as <- _; reflexivity.
  - destruct (get (ts_cons t) c) as [prev|]; [|injection H as <- _; reflexivity].
    destruct (track_next _ _ _ _) as [[a pr]|]; injection H as <- _; reflexivity.
  - destruct (get (ts_cons t) c); injection H as <- _; reflexivity.
  - destruct (get (ts_cons t) c); injection H as <- _; reflexivity.
  - destruct (get (ts_cons t) c); injection H as <- _; reflexivity.
Qed.

Lemma prods_kept m i o s s' x j t : spares1 o = true -> i < length (nt_tracks s) -> at_track m i o s = (s', x) ->
  nth_error (nt_tracks s') j = Some t -> exists t0, nth_error (nt_tracks s) j = Some t0 /\ get (ts_prods t) 1 = get (ts_prods t0) 1.
Proof.
  intros S L A E. destruct (nth_error (nt_tracks s) i) as [u|] eqn:Eu; [|apply nth_error_None in Eu; lia].
  destruct (at_track_eq _ _ _ _ _ _ _ Eu A) as (u' & St & ->). cbn [with_tracks nt_tracks] in E.
  destruct (Nat.eq_dec j i) as [->|N].
  - rewrite nth_error_set_eq in E by exact L. injection E as <-. exists u. split; [exact Eu|]. eapply spared; eauto.
  - rewrite nth_error_set_ne in E by congruence. eauto.
Qed.

(** One operation on a track that concerns no link. *)
Lemma ninv_track w m i o s s' x H : ninv w s H -> i < length (nt_tracks s) -> at_track m i o s = (s', x) ->
  (forall l ln, nth_error (nt_links s) l = Some ln -> passes i (groups (H i)) (o, x) l ln) ->
  (1 <= i -> accept_of (o, x) = []) ->
  (i = 0 -> Forall (fun g => g_id g < length (nth 0 (nt_groups s) [])) (accept_of (o, x))) ->
  (i = 0 \/ spares1 o = true) ->
  ninv w s' (ext H i (o, x)).
Proof.
  intros K L A P A1 A0 Sp. destruct (tracks_step m i o s s' x H (ni_tracks _ _ _ K) L A) as (T & Eg & El & Et).
  constructor.
  - exact T.
  - rewrite El. intros l ln E. apply link_ok_ext; [exact (ni_links _ _ _ K l ln E)|auto].
  - rewrite El. exact (ni_uniq _ _ _ K).
  - rewrite El. intros l ln t E Etr Ph. destruct Sp as [->|Sp].
    + destruct (nth_error (nt_tracks s) 0) as [u|] eqn:Eu; [|apply nth_error_None in Eu; lia].
      destruct (at_track_eq _ _ _ _ _ _ _ Eu A) as (u' & St & ->). cbn [with_tracks nt_tracks] in Etr.
      rewrite nth_error_set_ne in Etr by discriminate. exact (ni_prod _ _ _ K l ln t E Etr Ph).
    + destruct (prods_kept _ _ _ _ _ _ _ _ Sp L A Etr) as (t0 & E0 & ->). exact (ni_prod _ _ _ K l ln t0 E E0 Ph).
  - rewrite Eg, Et. exact (ni_glen _ _ _ K).
  - rewrite Eg. apply cont_ext; [exact (ni_cont _ _ _ K)|exact A1|exact A0].
Qed.

(** Link [l] changes, everything else being in order. *)
Lemma ninv_set w s H s1 H1 l ln ln' : ninv w s H -> nth_error (nt_links s) l = Some ln ->
  tracks_ok s1 H1 -> nt_links s1 = nt_links s -> length (nt_groups s1) = length (nt_tracks s1) ->
  cont_ok w (nt_groups s1) H1 ->
  (forall l' lx, l' <> l -> nth_error (nt_links s) l' = Some lx -> link_ok H1 l' lx) ->
  link_ok H1 l ln' -> ln_src ln' = ln_src ln -> ln_cons ln' = ln_cons ln ->
  (forall l' lx t, nth_error (nt_links s) l' = Some lx -> nth_error (nt_tracks s1) (S l') = Some t ->
     (l' = l -> ln_phase ln' <> LRemoved) -> (l' <> l -> ln_phase lx <> LRemoved) -> get (ts_prods t) 1 = Some Idle) ->
  ninv w (with_links s1 (set_nth l ln' (nt_links s1))) H1.
Proof.
  intros K E T El Eg C Ot Own Es Ec Pr.
  assert (Ll : l < length (nt_links s)) by (apply nth_error_Some; congruence).
  assert (At : forall l' lx, nth_error (set_nth l ln' (nt_links s)) l' = Some lx ->
                 (l' = l /\ lx = ln') \/ (l' <> l /\ nth_error (nt_links s) l' = Some lx)).
  { intros l' lx. destruct (Nat.eq_dec l' l) as [->|N].
    - rewrite nth_error_set_eq by exact Ll. intros [= <-]. auto.
    - rewrite nth_error_set_ne by congruence. auto. }
  constructor; cbn [with_links nt_links nt_tracks nt_groups]; rewrite ?El.
  - destruct T as [T1 T2 T3]. constructor; cbn [with_links nt_tracks nt_links]; auto. rewrite set_nth_length, <- El. exact T1.
  - intros l' lx Hl. destruct (At _ _ Hl) as [(-> & ->)|(N & Hx)]; [exact Own|apply Ot; auto].
  - intros a b la lb Ha Hb S1 S2. destruct (At _ _ Ha) as [(-> & ->)|(Na & Hxa)]; destruct (At _ _ Hb) as [(-> & ->)|(Nb & Hxb)]; auto.
    + exact (ni_uniq _ _ _ K l b ln lb E Hxb ltac:(congruence) ltac:(congruence)).
    + exact (ni_uniq _ _ _ K a l la ln Hxa E ltac:(congruence) ltac:(congruence)).
    + exact (ni_uniq _ _ _ K a b la lb Hxa Hxb S1 S2).
  - intros l' lx t Hl Ht Ph. destruct (At _ _ Hl) as [(-> & ->)|(N & Hx)].
    + apply (Pr l ln t E Ht); [auto|congruence].
    + apply (Pr l' lx t Hx Ht); [congruence|auto].
  - exact Eg.
  - exact C.
Qed.

(** The same state with one link changed. *)
Lemma ninv_link w s H l ln ln' : ninv w s H -> nth_error (nt_links s) l = Some ln ->
  link_ok H l ln' -> ln_src ln' = ln_src ln -> ln_cons ln' = ln_cons ln -> ln_phase ln' = ln_phase ln ->
  ninv w (with_links s (set_nth l ln' (nt_links s))) H.
Proof.
  intros K E Own Es Ec Ep.
  apply (ninv_set w s H s H l ln ln' K E (ni_tracks _ _ _ K) eq_refl (ni_glen _ _ _ K) (ni_cont _ _ _ K)); auto.
  - intros l' lx _ Hx. exact (ni_links _ _ _ K l' lx Hx).
  - intros l' lx t Hx Ht P1 P2. apply (ni_prod _ _ _ K l' lx t Hx Ht).
    destruct (Nat.eq_dec l' l) as [->|N]; [|auto]. assert (lx = ln) by congruence. subst. rewrite <- Ep. auto.
Qed.

Lemma links_tracks w s H l ln : ninv w s H -> nth_error (nt_links s) l = Some ln ->
  ln_src ln < length (nt_tracks s) /\ S l < length (nt_tracks s).
Proof.
  intros K E. assert (Ll : l < length (nt_links s)) by (apply nth_error_Some; congruence).
  rewrite (tk_len _ _ (ni_tracks _ _ _ K)). pose proof (lk_src _ _ _ (ni_links _ _ _ K l ln E)). lia.
Qed.

Lemma quiet_cdrop c y : quiet_ev (TCDrop c, y).
Proof. repeat split; intros; destruct y; reflexivity. Qed.
Lemma quiet_drop c y : quiet_ev (TDrop c, y).
Proof. repeat split; intros; destruct y; reflexivity. Qed.

Lemma ninv_left w m l ln ln' y did s s' x H : ninv w (with_links s (set_nth l ln' (nt_links s))) H ->
  nth_error (nt_links s) l = Some ln ->
  finish_turn m l ln' y did s = (s', x) ->
  exists d, no_did x = did ++ d /\ ninv w s' (exts H d).
Proof.
  intros K1 E F. unfold finish_turn in F. destruct (is_over ln') eqn:O.
  - destruct (at_track m (ln_src ln') (TCDrop (ln_cons ln')) (with_links s (set_nth l ln' (nt_links s)))) as [s2 z] eqn:A.
    injection F as <- <-. cbn [no_did]. eexists. split; [reflexivity|]. cbn [exts fold_left fst snd].
    assert (L : ln_src ln' < length (nt_tracks (with_links s (set_nth l ln' (nt_links s))))).
    { apply (links_tracks w _ H l ln' K1). cbn [with_links nt_links]. apply nth_error_set_eq. apply nth_error_Some. congruence. }
    apply (ninv_track w m _ _ _ _ _ _ K1 L A).
    + intros. apply passes_quiet, quiet_cdrop.
    + intros _. apply quiet_cdrop.
    + intros _. rewrite (proj1 (quiet_cdrop _ _)). constructor.
    + right. reflexivity.
  - injection F as <- <-. cbn [no_did]. exists []. split; [symmetry; apply app_nil_r|exact K1].
Qed.

Lemma exts_app H a b : exts H (a ++ b) = exts (exts H a) b.
Proof. unfold exts. apply fold_left_app. Qed.

(** * Contents only *)

Lemma ninv_groups w s H gs : ninv w s H -> length gs = length (nt_groups s) -> cont_ok w gs H -> ninv w (with_groups s gs) H.
Proof.
  intros [K1 K2 K3 K4 K5 K6] L C. constructor; cbn [with_groups nt_tracks nt_links nt_groups]; auto.
  - destruct K1. constructor; assumption.
  - rewrite L. exact K5.
Qed.

Lemma groups_pos w s H : ninv w s H -> 0 < length (nt_groups s).
Proof. intros K. rewrite (ni_glen _ _ _ K), (tk_len _ _ (ni_tracks _ _ _ K)). lia. Qed.

Lemma nth_error_app_some {A} (l r : list A) n x : nth_error l n = Some x -> nth_error (l ++ r) n = Some x.
Proof. intros E. rewrite nth_error_app1; [exact E|]. apply nth_error_Some. congruence. Qed.

Lemma step_group w m s s' x H : ninv w s H -> nstep m w s NGroup = (s', x) -> ninv w s' (exts H (no_did x)).
Proof.
  intros K St. cbn [nstep] in St. apply pair_equal_spec in St. destruct St as (<- & <-). cbn [no_did exts fold_left].
  pose proof (groups_pos w s H K) as L0.
  apply (ninv_groups w s H _ K); [apply set_nth_length|]. destruct (ni_cont _ _ _ K) as [C1 C2 C3 C4].
  assert (N0 : nth 0 (set_nth 0 (nth 0 (nt_groups s) [] ++ [RGroup [] None]) (nt_groups s)) [] = nth 0 (nt_groups s) [] ++ [RGroup [] None])
    by (apply nth_set_eq; exact L0).
  constructor.
  - rewrite N0. eapply Forall_impl; [|exact C1]. intros g Hg. cbn beta in *. rewrite app_length. lia.
  - intros i Li. rewrite nth_set_ne by lia. apply C2. exact Li.
  - intros i h Hh. destruct (Nat.eq_dec i 0) as [->|N].
    + rewrite N0 in Hh. apply in_app_or in Hh. destruct Hh as [Hh|[<-|[]]]; [exact (C3 0 h Hh)|constructor].
    + rewrite nth_set_ne in Hh by lia. exact (C3 i h Hh).
  - intros i g h Li Hg Hh. rewrite nth_set_ne in Hh by lia. destruct (C4 i g h Li Hg Hh) as (g0 & h0 & I0 & Q0 & E0 & Cp).
    exists g0, h0. rewrite N0. split; [exact I0|]. split; [exact Q0|]. split; [apply nth_error_app_some; exact E0|exact Cp].
Qed.

Lemma step_fill w m s j o s' x H : (62 <= w)%N -> modest (NFill j o) -> ninv w s H -> nstep m w s (NFill j o) = (s', x) ->
  ninv w s' (exts H (no_did x)).
Proof.
  intros W M K St. cbn [nstep] in St.
  destruct (nth_error (nth 0 (nt_groups s) []) j) as [g|] eqn:E; [|injection St as <- <-; exact K].
  destruct (fill w o g) as [g'|] eqn:F; [|injection St as <- <-; exact K]. apply pair_equal_spec in St. destruct St as (<- & <-). cbn [no_did exts fold_left].
  pose proof (groups_pos w s H K) as L0.
  apply (ninv_groups w s H _ K); [apply set_nth_length|]. destruct (ni_cont _ _ _ K) as [C1 C2 C3 C4].
  pose proof (C3 0 g (nth_error_In _ _ E)) as Sg. destruct (fill_ok w o g g' W M Sg F) as (Sg' & _).
  assert (N0 : nth 0 (set_nth 0 (set_nth j g' (nth 0 (nt_groups s) [])) (nt_groups s)) [] = set_nth j g' (nth 0 (nt_groups s) []))
    by (apply nth_set_eq; exact L0).
  assert (Lj : j < length (nth 0 (nt_groups s) [])) by (apply nth_error_Some; congruence).
  constructor.
  - rewrite N0, set_nth_length. exact C1.
  - intros i Li. rewrite nth_set_ne by lia. apply C2. exact Li.
  - intros i h Hh. destruct (Nat.eq_dec i 0) as [->|N].
    + rewrite N0 in Hh. apply (In_nth_error) in Hh. destruct Hh as (k & Hk). destruct (Nat.eq_dec j k) as [->|Nk].
      * rewrite nth_error_set_eq in Hk by exact Lj. injection Hk as <-. exact Sg'.
      * rewrite nth_error_set_ne in Hk by exact Nk. exact (C3 0 h (nth_error_In _ _ Hk)).
    + rewrite nth_set_ne in Hh by lia. exact (C3 i h Hh).
  - intros i gr h Li Hg Hh. rewrite nth_set_ne in Hh by lia. destruct (C4 i gr h Li Hg Hh) as (g0 & h0 & I0 & Q0 & E0 & Cp).
    rewrite N0. destruct (Nat.eq_dec j (g_id g0)) as [Ej|Nj].
    + exists g0, g'. split; [exact I0|]. split; [exact Q0|]. split; [rewrite <- Ej; apply nth_error_set_eq; exact Lj|].
      assert (h0 = g) by congruence. subst h0. exact (fill_copy w o g g' h W M Sg F Cp).
    + exists g0, h0. rewrite nth_error_set_ne by exact Nj. auto.
Qed.

(** * Using a handle *)

Lemma nth_app_l {A} (l r : list A) n d : n < length l -> nth n (l ++ r) d = nth n l d.
Proof. apply app_nth1. Qed.

Lemma twatch_other G o x c : c < length G -> (forall c', o = TNext c' -> c' <> c) -> nth c (twatch G (o, x)) [] = nth c G [].
Proof.
  intros L N. destruct o as [p g|p|p id|p|p e|p|p|p| |p|c'|c'|c'|c']; try reflexivity.
  - destruct x; try reflexivity. cbn. apply nth_app_l. exact L.
  - specialize (N c' eq_refl). destruct x as [| | | | |[[g|]| | |]|]; try reflexivity. cbn. apply nth_set_ne. exact N.
  - destruct x; try reflexivity. cbn. apply nth_app_l. exact L.
Qed.

Lemma owned_false s i c l ln : owned s i c = false -> nth_error (nt_links s) l = Some ln -> ln_src ln = i -> ln_cons ln <> c.
Proof.
  intros O E Es Ec. unfold owned in O. 
  assert (T : existsb (fun l => Nat.eqb (ln_src l) i && Nat.eqb (ln_cons l) c) (nt_links s) = true).
  { apply existsb_exists. exists ln. split; [eapply nth_error_In; exact E|]. rewrite Es, Ec, !Nat.eqb_refl. reflexivity. }
  congruence.
Qed.

Lemma accept_ids m t o t' x n : tstep m t o = (t', x) ->
  match o with TInsert _ g => g_id g < n | TAppend2 _ id => id < n | _ => True end ->
  Forall (fun g => g_id g < n) (accept_of (o, x)).
Proof.
  intros St Hn. destruct o as [p g|p|p id|p|p e|p|p|p| |p|c|c|c|c]; try (constructor).
  - destruct x as [| | |[]| | |]; constructor; [exact Hn|constructor].
  - destruct x as [| | | |g| |]; try constructor; [|constructor]. cbn in St.
    destruct (get (ts_prods t) p) as [[|q]|]; try discriminate. 
    destruct (track_insert _ _ _) as [[[] l]|]; try discriminate. injection St as _ <-. exact Hn.
Qed.

Lemma step_use w m s i o s' x H : ninv w s H -> nstep m w s (NUse i o) = (s', x) -> ninv w s' (exts H (no_did x)).
Proof.
  intros K St. cbn [nstep] in St.
  destruct (Nat.ltb i (length (nt_tracks s)) && may_use s i o) eqn:G; [|injection St as <- <-; exact K].
  apply andb_true_iff in G. destruct G as (L & G). apply Nat.ltb_lt in L.
  destruct (at_track m i o s) as [s1 y] eqn:A. injection St as <- <-. cbn [no_did exts fold_left fst snd].
  assert (Q : i = 0 \/ (accept_of (o, y) = [] /\ (forall v, tclosing v (o, y) = v) /\ spares1 o = true)).
  { destruct i as [|i]; [auto|right]. destruct o; try discriminate G; repeat split; intros; destruct y; reflexivity. }
  apply (ninv_track w m i o s s1 y H K L A).
  - intros l ln E. pose proof (ni_links _ _ _ K l ln E) as Lk. split.
    + intros Es. apply twatch_other; [rewrite <- Es; exact (lk_cons _ _ _ Lk)|].
      intros c -> Ec. apply (owned_false s i c l ln); auto. destruct (owned s i c) eqn:O; [|reflexivity].
      exfalso. cbn in G. rewrite O in G. discriminate.
    + intros Es. destruct Q as [->|(Q1 & Q2 & _)]; [discriminate|auto].
  - intros Li. destruct Q as [->|(Q1 & _)]; [lia|exact Q1].
  - intros ->. destruct (nth_error (nt_tracks s) 0) as [t|] eqn:Et; [|apply nth_error_None in Et; lia].
    destruct (at_track_eq _ _ _ _ _ _ _ Et A) as (t' & Stt & _). eapply accept_ids; [exact Stt|].
    destruct o; auto; cbn in G; apply Nat.ltb_lt in G; exact G.
  - destruct Q as [->|(_ & _ & Q)]; auto.
Qed.

(** * Opening a subscription *)

Lemma step_open w m s i p id prio s' x H : ninv w s H -> nstep m w s (NOpen i p id prio) = (s', x) -> ninv w s' (exts H (no_did x)).
Proof.
  intros K St. cbn [nstep] in St.
  destruct (Nat.eqb i 0 || Nat.eqb p 2); [|injection St as <- <-; exact K].
  destruct (nth_error (nt_tracks s) i) as [t|] eqn:Et; [|injection St as <- <-; exact K].
  destruct (tstep m t (TConsume p)) as [t' y] eqn:Stt. destruct y; try (injection St as <- <-; exact K).
  set (t1 := fst (tstep m tsys_new (TClone 0))) in *.
  set (n := length (nt_tracks s)) in *.
  assert (S1 : tstep m tsys_new (TClone 0) = (t1, TUnit)) by reflexivity.
  set (t2 := fst (tstep m t1 (TClone 0))) in *.
  assert (S2 : tstep m t1 (TClone 0) = (t2, TUnit)) by reflexivity.
  rewrite S1 in St. rewrite S2 in St. injection St as <- <-. cbn [no_did exts fold_left fst snd].
  destruct (ni_tracks _ _ _ K) as [T1 T2 T3].
  assert (Li : i < n) by (apply nth_error_Some; unfold n; congruence).
  assert (Ct : t' = twith_cons t (ts_cons t ++ [Some None])).
  { cbn in Stt. destruct (idle t p); [|discriminate]. injection Stt as <-. reflexivity. }
  set (H1 := ext H i (TConsume p, TUnit)).
  set (H2 := ext H1 n (TClone 0, TUnit)). set (H3 := ext H2 n (TClone 0, TUnit)).
  assert (Hn : H n = []) by (apply T3; lia).
  assert (H3n : H3 n = [(TClone 0, TUnit); (TClone 0, TUnit)]).
  { unfold H3, H2. rewrite !ext_same. unfold H1. rewrite ext_other by lia. rewrite Hn. reflexivity. }
  assert (H3i : H3 i = H i ++ [(TConsume p, TUnit)]).
  { unfold H3, H2. rewrite !ext_other by lia. apply ext_same. }
  assert (H3o : forall j, j <> i -> j <> n -> H3 j = H j).
  { intros j N1 N2. unfold H3, H2, H1. rewrite !ext_other by assumption. reflexivity. }
  assert (Tn : tinv t2 (H3 n)).
  { rewrite H3n. apply (tinv_step m t1 [(TClone 0, TUnit)] (TClone 0) t2 TUnit); [|reflexivity].
    apply (tinv_step m tsys_new [] (TClone 0) t1 TUnit); [|reflexivity]. constructor; try reflexivity; constructor. }
  assert (Gi : groups (H3 i) = groups (H i) ++ [[]]) by (rewrite H3i, groups_snoc; reflexivity).
  assert (Gl : length (ts_cons t) = length (groups (H i))).
  { pose proof (ti_readers _ _ (T2 i t Et)) as R. clear -R. induction R; cbn; congruence. }
  assert (Ai : forall j, accepted (H3 j) = accepted (H j)).
  { intros j. destruct (Nat.eq_dec j n) as [->|Nn]; [rewrite H3n, Hn; reflexivity|].
    destruct (Nat.eq_dec j i) as [->|Ni]; [|rewrite H3o by assumption; reflexivity].
    rewrite H3i, accepted_snoc. cbn. apply app_nil_r. }
  assert (LkO : forall l ln, nth_error (nt_links s) l = Some ln -> link_ok H3 l ln).
  { intros l ln E. pose proof (ni_links _ _ _ K l ln E) as Lk.
    assert (Ll : l < length (nt_links s)) by (apply nth_error_Some; congruence).
    pose proof (lk_src _ _ _ Lk) as Ls.
    assert (P2 : forall G e, passes n G e l ln) by (intros; split; intros; lia).
    apply link_ok_ext; [|apply P2]. apply link_ok_ext; [|apply P2]. apply link_ok_ext; [exact Lk|]. split.
    - intros Es. apply twatch_other; [rewrite <- Es; exact (lk_cons _ _ _ Lk)|discriminate].
    - intros _. split; reflexivity. }
  set (ln := Link i (length (ts_cons t)) id prio tserve_new [] None LRunning).
  assert (LkN : link_ok H3 (length (nt_links s)) ln).
  { assert (Sn : S (length (nt_links s)) = n) by (unfold n; congruence).
    constructor; rewrite ?Sn, ?H3n; unfold ln; cbn [ln_src ln_cons ln_phase ln_streams ln_serve ln_over map].
    - lia.
    - rewrite Gi, app_length, Gl. cbn. lia.
    - rewrite Gi, Gl. rewrite app_nth2, Nat.sub_diag by lia. cbn.
      constructor; [constructor|intros ? ? ? []|intros ? []|intros _ ? ? []].
    - reflexivity.
    - intros _. constructor; try reflexivity; cbn; discriminate.
    - reflexivity.
    - discriminate.
    - intros (q & [E|[E|[]]]); discriminate.
    - discriminate. }
  constructor; cbn [nt_tracks nt_links nt_groups].
  - constructor; cbn [nt_tracks nt_links].
    + rewrite !app_length, set_nth_length. cbn [length]. fold n. lia.
    + intros j u E. destruct (Nat.lt_ge_cases j n) as [Lj|Lj].
      * rewrite nth_error_app1 in E by (rewrite set_nth_length; exact Lj). destruct (Nat.eq_dec j i) as [->|N].
        -- rewrite nth_error_set_eq in E by exact Li. injection E as <-. rewrite H3i. eapply tinv_step; [exact (T2 i t Et)|exact Stt].
        -- rewrite nth_error_set_ne in E by congruence. rewrite H3o by lia. exact (T2 j u E).
      * rewrite nth_error_app2 in E by (rewrite set_nth_length; exact Lj). rewrite set_nth_length in E. fold n in E.
        destruct (j - n) as [|k] eqn:Ej; [|destruct k; discriminate]. injection E as <-. replace j with n by lia. exact Tn.
    + intros j. rewrite app_length, set_nth_length. cbn [length]. intros Lj. rewrite H3o by (fold n in Lj; lia). apply T3. fold n in Lj. lia.
  - intros l lx E. destruct (Nat.lt_ge_cases l (length (nt_links s))) as [Lj|Lj].
    + rewrite nth_error_app1 in E by exact Lj. exact (LkO l lx E).
    + rewrite nth_error_app2 in E by exact Lj. destruct (l - length (nt_links s)) as [|k] eqn:Ej; [|destruct k; discriminate].
      injection E as <-. replace l with (length (nt_links s)) by lia. exact LkN.
  - assert (U : forall l lx, nth_error (nt_links s) l = Some lx -> ln_src lx = i -> ln_cons lx = length (ts_cons t) -> False).
    { intros l lx E Es Ec. pose proof (lk_cons _ _ _ (ni_links _ _ _ K l lx E)) as Lc. rewrite Es in Lc. lia. }
    assert (At : forall l lx, nth_error (nt_links s ++ [ln]) l = Some lx ->
              nth_error (nt_links s) l = Some lx \/ (l = length (nt_links s) /\ lx = ln)).
    { intros l lx E. destruct (Nat.lt_ge_cases l (length (nt_links s))) as [Lj|Lj].
      - rewrite nth_error_app1 in E by exact Lj. auto.
      - rewrite nth_error_app2 in E by exact Lj. destruct (l - length (nt_links s)) as [|k] eqn:Ej; [|destruct k; discriminate].
        injection E as <-. right. split; [lia|reflexivity]. }
    intros a b la lb Ea Eb Es Ec.
    destruct (At _ _ Ea) as [Ea'|(-> & ->)]; destruct (At _ _ Eb) as [Eb'|(-> & ->)]; auto.
    + exact (ni_uniq _ _ _ K a b la lb Ea' Eb' Es Ec).
    + exfalso. exact (U a la Ea' Es Ec).
    + exfalso. exact (U b lb Eb' (eq_sym Es) (eq_sym Ec)).
  - intros l lx u E Eu Ph. destruct (Nat.lt_ge_cases l (length (nt_links s))) as [Lj|Lj].
    + rewrite nth_error_app1 in E by exact Lj.
      rewrite nth_error_app1 in Eu by (rewrite set_nth_length; fold n; lia).
      destruct (Nat.eq_dec (S l) i) as [<-|N].
      * rewrite nth_error_set_eq in Eu by exact Li. injection Eu as <-. rewrite Ct. exact (ni_prod _ _ _ K l lx t E Et Ph).
      * rewrite nth_error_set_ne in Eu by congruence. exact (ni_prod _ _ _ K l lx u E Eu Ph).
    + assert (Hl : l < length (nt_links s ++ [ln])) by (apply nth_error_Some; congruence).
      rewrite app_length in Hl. cbn [length] in Hl. rewrite nth_error_app2 in Eu by (rewrite set_nth_length; fold n; lia).
      rewrite set_nth_length in Eu. fold n in Eu. replace (S l - n) with 0 in Eu by lia. injection Eu as <-. reflexivity.
  - rewrite !app_length, set_nth_length. cbn [length]. rewrite (ni_glen _ _ _ K). reflexivity.
  - destruct (ni_cont _ _ _ K) as [C1 C2 C3 C4].
    assert (Nh : forall j, nth j (nt_groups s ++ [[]]) [] = nth j (nt_groups s) []).
    { intros j. destruct (Nat.lt_ge_cases j (length (nt_groups s))) as [Lj|Lj]; [apply app_nth1; exact Lj|].
      rewrite app_nth2 by exact Lj. rewrite (nth_overflow (nt_groups s)) by exact Lj. destruct (j - length (nt_groups s)) as [|[|k]]; reflexivity. }
    constructor; intros; rewrite ?Nh, ?Ai in *; eauto.
Qed.

(** * The publisher's loop *)

Lemma tverdict_finished h : tverdict h = Some Finished -> finished_in h.
Proof.
  induction h as [|e h IH] using rev_ind; [discriminate|]. rewrite tverdict_snoc. rewrite finished_snoc.
  destruct e as [o x]. destruct o; try (intros V; left; apply IH; exact V).
  - destruct x; try (intros V; left; apply IH; exact V). intros _. right. eauto.
  - destruct x; try (intros V; left; apply IH; exact V). discriminate.
Qed.

(** A turn that adds no stream. *)
Lemma link_turn m H l ln o ss ln' y : link_ok H l ln -> ln_over ln = None ->
  map core ss = map core (ln_streams ln) -> (forall st, last_opt ss = Some st -> st_cancelled st = false) ->
  (forall q, o <> SGroup q) -> (o = SNoMore -> finished_in (H (ln_src ln))) ->
  turn m ln o ss = (ln', y) -> link_ok H l ln'.
Proof.
  intros Lk O Mc Lc No Fi T. destruct Lk as [L1 L2 L3 L4 L5 L6 L7 L8 L9].
  assert (Ls : length ss = length (ln_streams ln)) by (rewrite <- (map_length core), Mc; apply map_length).
  destruct (turn_keeps _ _ _ _ _ _ T) as (K1 & K2 & _ & K4 & K5 & K6 & K7).
  destruct (turn_other m ln o ss ln' y O (L5 O) L4 Ls Lc No T) as (T1 & T2 & T3).
  constructor; rewrite ?K1, ?K2, ?K4, ?K5, ?Mc; auto.
  intros F. specialize (L8 F). congruence.
Qed.

Lemma ninv_turn w m s H l ln o ss ln' y did s' x : ninv w s H -> nth_error (nt_links s) l = Some ln -> ln_over ln = None ->
  map core ss = map core (ln_streams ln) -> (forall st, last_opt ss = Some st -> st_cancelled st = false) ->
  (forall q, o <> SGroup q) -> (o = SNoMore -> finished_in (H (ln_src ln))) ->
  turn m ln o ss = (ln', y) -> finish_turn m l ln' y did s = (s', x) ->
  exists d, no_did x = did ++ d /\ ninv w s' (exts H d).
Proof.
  intros K E O Mc Lc No Fi T F. eapply ninv_left; [|exact E|exact F].
  destruct (turn_keeps _ _ _ _ _ _ T) as (K1 & K2 & _ & K4 & _).
  apply (ninv_link w s H l ln ln' K E); auto. eapply link_turn; eauto. exact (ni_links _ _ _ K l ln E).
Qed.

Lemma is_over_none ln : is_over ln = false -> ln_over ln = None.
Proof. unfold is_over. destruct (ln_over ln); [discriminate|reflexivity]. Qed.

Lemma step_poll w m s l s' x H : ninv w s H -> nstep m w s (NPoll l) = (s', x) -> ninv w s' (exts H (no_did x)).
Proof.
  intros K St. cbn [nstep] in St. destruct (nth_error (nt_links s) l) as [ln|] eqn:E; [|injection St as <- <-; exact K].
  destruct (is_over ln) eqn:Ov; [injection St as <- <-; exact K|]. apply is_over_none in Ov.
  pose proof (ni_links _ _ _ K l ln E) as Lk. destruct (links_tracks w s H l ln K E) as (Ls & _).
  destruct (at_track m (ln_src ln) (TNext (ln_cons ln)) s) as [s1 y] eqn:A.
  set (i := ln_src ln) in *. set (c := ln_cons ln) in *. set (H1 := ext H i (TNext c, y)).
  destruct (nth_error (nt_tracks s) i) as [t|] eqn:Et; [|apply nth_error_None in Et; lia].
  destruct (at_track_eq _ _ _ _ _ _ _ Et A) as (t' & Stt & Es1).
  pose proof (tk_inv _ _ (ni_tracks _ _ _ K) i t Et) as Ti.
  assert (Quiet : (forall g, y <> TGot (AOk (Some g))) -> ninv w s1 H1).
  { intros Ny. assert (Tw : forall G, twatch G (TNext c, y) = G).
    { intros G. destruct y as [| | | | |[[g|]| | |]|]; try reflexivity. exfalso. exact (Ny g eq_refl). }
    apply (ninv_track w m _ _ _ _ _ _ K Ls A).
    - intros l' lx E'. split; [intros _; rewrite Tw; reflexivity|]. intros _. split; reflexivity.
    - intros _. reflexivity.
    - intros _. constructor.
    - right. reflexivity. }
  assert (E1 : nth_error (nt_links s1) l = Some ln) by (rewrite Es1; exact E).
  assert (Go : forall o, (forall q, o <> SGroup q) -> (o = SNoMore -> finished_in (H1 (ln_src ln))) -> (forall g, y <> TGot (AOk (Some g))) ->
             (let (ln, y0) := turn m ln o (ln_streams ln) in finish_turn m l ln y0 [(i, (TNext c, y))] s1) = (s', x) ->
             ninv w s' (exts H (no_did x))).
  { intros o No Fi Ny F. specialize (Quiet Ny). destruct (turn m ln o (ln_streams ln)) as [ln' z] eqn:T.
    destruct (ninv_turn w m s1 H1 l ln o (ln_streams ln) ln' z _ s' x Quiet E1 Ov eq_refl (fo_last _ _ (lk_fut _ _ _ Lk Ov)) No Fi T F) as (d & D & R).
    rewrite D, exts_app. exact R. }
  assert (Fin : y = TGot (AOk None) -> finished_in (H1 (ln_src ln))).
  { intros ->. unfold H1. fold i. rewrite ext_same, finished_snoc. left. apply tverdict_finished.
    rewrite <- (ti_closed _ _ Ti). cbn in Stt. destruct (get (ts_cons t) c) as [prev|]; [|discriminate].
    unfold track_next in Stt. destruct (ts_closed t) as [[|e]|]; [reflexivity| |]; exfalso.
    - rewrite orb_true_r in Stt. discriminate.
    - destruct (opt_gt _ _ || _); [destruct (ts_latest t); discriminate|]. destruct (tsys_alive t); discriminate. }
  destruct y as [| | | | |[[g|]|e| |]|]; try (injection St as <- <-; apply Quiet; discriminate).
  - clear Quiet Go Fin. destruct (turn m ln (SGroup (g_seq g)) (ln_streams ln ++ [strm_new g])) as [ln' z] eqn:T.
    destruct (tracks_step _ _ _ _ _ _ _ (ni_tracks _ _ _ K) Ls A) as (Tk & Eg & El & Elen). fold H1 in Tk.
    assert (K1 : ninv w (with_links s1 (set_nth l ln' (nt_links s1))) H1).
    { destruct (turn_keeps _ _ _ _ _ _ T) as (U1 & U2 & _ & U4 & U5 & U6 & U7).
      destruct (turn_group m ln g ln' z Ov (lk_fut _ _ _ Lk Ov) (lk_count _ _ _ Lk) T) as (V1 & V2 & V3).
      apply (ninv_set w s H s1 H1 l ln ln' K E Tk El); auto.
      - rewrite Eg, Elen. exact (ni_glen _ _ _ K).
      - rewrite Eg. apply cont_ext; [exact (ni_cont _ _ _ K)|reflexivity|constructor].
      - intros l' lx N E'. pose proof (ni_links _ _ _ K l' lx E') as Lx. apply link_ok_ext; [exact Lx|]. split.
        + intros Es. apply twatch_other; [rewrite <- Es; exact (lk_cons _ _ _ Lx)|]. intros c' [= <-] Ec.
          apply N. exact (ni_uniq _ _ _ K l' l lx ln E' E Es (eq_sym Ec)).
        + intros _. split; reflexivity.
      - destruct Lk as [L1 L2 L3 L4 L5 L6 L7 L8 L9].
        assert (Hs : H1 (S l) = H (S l)) by (unfold H1; apply ext_other; fold i in L1; lia).
        assert (Hi : H1 i = H i ++ [(TNext c, TGot (AOk (Some g)))]) by apply ext_same.
        constructor; rewrite ?U1, ?U2, ?U4, ?U5, ?Hs; fold i c; rewrite ?Hi; auto.
        + rewrite groups_snoc. eapply Nat.lt_le_trans; [exact L2|apply twatch_length].
        + rewrite groups_snoc. cbn [twatch]. rewrite nth_set_eq by exact L2. rewrite map_app. cbn [map strm_new core st_seq st_src st_at].
          destruct L3 as [M1 M2 M3 M4]. constructor.
          * apply Forall2_app; [exact M1|]. constructor; [reflexivity|constructor].
          * intros q j k I. apply in_app_or in I. destruct I as [I|[I|[]]]; [eauto|discriminate].
          * intros h Ih. destruct (M3 h Ih) as (k & a & I). exists k, a. apply in_or_app. auto.
          * intros R q k I. apply in_app_or in I. destruct I as [I|[I|[]]]; [eauto|discriminate].
        + intros F. specialize (L8 F). congruence.
        + congruence.
      - intros l' lx u E' Eu P1 P2. destruct (prods_kept m i (TNext c) s s1 _ (S l') u eq_refl Ls A Eu) as (u0 & Eu0 & ->).
        apply (ni_prod _ _ _ K l' lx u0 E' Eu0). destruct (Nat.eq_dec l' l) as [->|N]; [|auto].
        assert (lx = ln) by congruence. subst lx. rewrite <- U4. auto. }
    destruct (ninv_left w m l ln ln' z _ s1 s' x H1 K1 E1 St) as (d & D & R). rewrite D, exts_app. exact R.
  - apply (Go SNoMore); auto; discriminate.
  - apply (Go (SError e)); auto; discriminate.
Qed.

Lemma step_done w m s l newer lost s' x H : ninv w s H -> nstep m w s (NDone l newer lost) = (s', x) -> ninv w s' (exts H (no_did x)).
Proof.
  intros K St. cbn [nstep] in St. destruct (nth_error (nt_links s) l) as [ln|] eqn:E; [|injection St as <- <-; exact K].
  destruct (is_over ln) eqn:Ov; [injection St as <- <-; exact K|]. apply is_over_none in Ov.
  destruct (if newer then tv_new (ln_serve ln) else tv_old (ln_serve ln)) as [k|]; [|injection St as <- <-; exact K].
  destruct (nth_error (ln_streams ln) k) as [st|] eqn:Ek; [|injection St as <- <-; exact K].
  pose proof (ni_links _ _ _ K l ln E) as Lk. pose proof (fo_last _ _ (lk_fut _ _ _ Lk Ov)) as La.
  set (ss := if lost then at_stream lose k (ln_streams ln) else ln_streams ln) in *.
  assert (Mc : map core ss = map core (ln_streams ln)) by (unfold ss; destruct lost; [apply core_at; reflexivity|reflexivity]).
  assert (Lc : forall st, last_opt ss = Some st -> st_cancelled st = false).
  { unfold ss. destruct lost; [|exact La]. intros st0 L0. destruct (last_lose _ _ _ L0) as (st1 & L1 & <-). apply La. exact L1. }
  assert (Go : (let (ln, y) := turn m ln (if newer then SNewDone else SOldDone) ss in finish_turn m l ln y [] s) = (s', x) ->
               ninv w s' (exts H (no_did x))).
  { intros F. destruct (turn m ln (if newer then SNewDone else SOldDone) ss) as [ln' y] eqn:T.
    edestruct (ninv_turn w m s H l ln (if newer then SNewDone else SOldDone) ss ln' y [] s' x K E Ov Mc Lc) as (d & D & R);
      [destruct newer; discriminate|destruct newer; discriminate|exact T|exact F|]. rewrite D. exact R. }
  destruct lost, (nth_error (nth (ln_src ln) (nt_groups s) []) (st_src st)) as [[fs [o|]]|]; auto; injection St as <- <-; exact K.
Qed.

Lemma step_stop w m s l s' x H : ninv w s H -> nstep m w s (NStop l) = (s', x) -> ninv w s' (exts H (no_did x)).
Proof.
  intros K St. cbn [nstep] in St. destruct (nth_error (nt_links s) l) as [ln|] eqn:E; [|injection St as <- <-; exact K].
  destruct (is_over ln) eqn:Ov; [injection St as <- <-; exact K|]. apply is_over_none in Ov.
  pose proof (ni_links _ _ _ K l ln E) as Lk. destruct (turn m ln SStop (ln_streams ln)) as [ln' y] eqn:T.
  edestruct (ninv_turn w m s H l ln SStop (ln_streams ln) ln' y [] s' x K E Ov eq_refl (fo_last _ _ (lk_fut _ _ _ Lk Ov))) as (d & D & R);
    [discriminate|discriminate|exact T|exact St|]. rewrite D. exact R.
Qed.

(** * The subscriber's task *)

(** An event on the filled track that adds no group. *)
Lemma others_pass w s H l e : ninv w s H -> accept_of e = [] -> (forall G, twatch G e = G) ->
  forall l' lx, l' <> l -> nth_error (nt_links s) l' = Some lx -> link_ok (ext H (S l) e) l' lx.
Proof.
  intros K Q Tw l' lx N E'. apply link_ok_ext; [exact (ni_links _ _ _ K l' lx E')|]. split.
  - intros _. rewrite Tw. reflexivity.
  - intros [= Es]. congruence.
Qed.

Lemma step_end w m s l clean s' x H : ninv w s H -> nstep m w s (NEnd l clean) = (s', x) -> ninv w s' (exts H (no_did x)).
Proof.
  intros K St. cbn [nstep] in St. destruct (nth_error (nt_links s) l) as [ln|] eqn:E; [|injection St as <- <-; exact K].
  set (o := if clean then TFinish 0 else TAbort 0 Cancel) in *.
  destruct (at_track m (S l) o s) as [s1 y] eqn:A.
  pose proof (ni_links _ _ _ K l ln E) as Lk. destruct (links_tracks w s H l ln K E) as (_ & Ls).
  assert (Ph : ln_phase ln = LRunning -> (clean = true -> ln_over ln = Some None) ->
    ninv w (with_links s1 (set_nth l (with_phase ln LEnded) (nt_links s1))) (ext H (S l) (o, y))).
  { intros Ph Cl. destruct (tracks_step _ _ _ _ _ _ _ (ni_tracks _ _ _ K) Ls A) as (Tk & Eg & El & Elen).
    assert (Ac : accept_of (o, y) = []) by (unfold o; destruct clean; reflexivity).
    assert (Tw : forall G, twatch G (o, y) = G) by (intros; unfold o; destruct clean; destruct y; reflexivity).
    apply (ninv_set w s H s1 _ l ln (with_phase ln LEnded) K E Tk El); auto.
    - rewrite Eg, Elen. exact (ni_glen _ _ _ K).
    - rewrite Eg. apply cont_ext; [exact (ni_cont _ _ _ K)|auto|lia].
    - apply (others_pass w s H l (o, y) K Ac Tw).
    - destruct Lk as [L1 L2 L3 L4 L5 L6 L7 L8 L9].
      constructor; cbn [with_phase ln_src ln_cons ln_phase ln_streams ln_serve ln_over]; rewrite ?ext_same; rewrite ?ext_other by lia; auto.
      + destruct L3 as [M1 M2 M3 M4]. rewrite accepted_snoc, Ac, app_nil_r. constructor; auto. discriminate.
      + discriminate.
      + intros e. rewrite tverdict_snoc. unfold o. destruct clean, y; cbn; try (apply L7); congruence.
      + rewrite finished_snoc. intros [F|(p & Fp)]; [auto|]. apply Cl. unfold o in Fp. destruct clean; [reflexivity|discriminate].
    - intros l' lx u E' Eu P1 P2.
      assert (Sp : spares1 o = true) by (unfold o; destruct clean; reflexivity).
      destruct (prods_kept m (S l) o s s1 _ (S l') u Sp Ls A Eu) as (u0 & Eu0 & ->).
      apply (ni_prod _ _ _ K l' lx u0 E' Eu0). destruct (Nat.eq_dec l' l) as [->|N]; [|auto].
      assert (lx = ln) by congruence. subst lx. rewrite Ph. discriminate. }
  destruct (ln_phase ln); [|injection St as <- <-; exact K|injection St as <- <-; exact K].
  destruct clean.
  - destruct (ln_over ln) as [[e|]|]; try (injection St as <- <-; exact K). injection St as <- <-. apply Ph; auto.
  - injection St as <- <-. apply Ph; [reflexivity|discriminate].
Qed.

Lemma step_remove w m s l s' x H : ninv w s H -> nstep m w s (NRemove l) = (s', x) -> ninv w s' (exts H (no_did x)).
Proof.
  intros K St. cbn [nstep] in St. destruct (nth_error (nt_links s) l) as [ln|] eqn:E; [|injection St as <- <-; exact K].
  pose proof (ni_links _ _ _ K l ln E) as Lk. destruct (links_tracks w s H l ln K E) as (_ & Ls).
  destruct (ln_phase ln) eqn:Ph; [injection St as <- <-; exact K| |injection St as <- <-; exact K].
  destruct (at_track m (S l) (TDrop 1) s) as [s1 y] eqn:A. injection St as <- <-. cbn [no_did exts fold_left fst snd].
  destruct (tracks_step _ _ _ _ _ _ _ (ni_tracks _ _ _ K) Ls A) as (Tk & Eg & El & Elen).
  destruct (quiet_drop 1 y) as (Ac & Tw & Tc).
  apply (ninv_set w s H s1 _ l ln (with_phase ln LRemoved) K E Tk El); auto.
  - rewrite Eg, Elen. exact (ni_glen _ _ _ K).
  - rewrite Eg. apply cont_ext; [exact (ni_cont _ _ _ K)|auto|lia].
  - apply (others_pass w s H l _ K Ac Tw).
  - destruct (link_ok_ext H (S l) (TDrop 1, y) l ln Lk) as [L1 L2 L3 L4 L5 L6 L7 L8 L9]; [apply passes_quiet, quiet_drop|].
    constructor; cbn [with_phase ln_src ln_cons ln_phase ln_streams ln_serve ln_over]; auto.
    + destruct L3 as [M1 M2 M3 M4]. constructor; auto. discriminate.
    + discriminate.
  - intros l' lx u E' Eu P1 P2. destruct (Nat.eq_dec l' l) as [->|N]; [exfalso; apply (P1 eq_refl); reflexivity|].
    destruct (nth_error (nt_tracks s) (S l)) as [t|] eqn:Et; [|apply nth_error_None in Et; lia].
    destruct (at_track_eq _ _ _ _ _ _ _ Et A) as (t' & _ & ->). cbn [with_tracks nt_tracks] in Eu.
    rewrite nth_error_set_ne in Eu by congruence. exact (ni_prod _ _ _ K l' lx u E' Eu (P2 N)).
Qed.

(** * Streams arriving *)

Lemma last_set_cancelled k ss st st' x : nth_error ss k = Some st -> st_cancelled st' = st_cancelled st ->
  last_opt (set_nth k st' ss) = Some x -> exists x', last_opt ss = Some x' /\ st_cancelled x' = st_cancelled x.
Proof.
  intros E Ec. revert k E. induction ss as [|y ss IH]; intros k E; [destruct k; discriminate|].
  destruct k as [|k].
  - cbn in E. injection E as ->. cbn [set_nth]. destruct ss as [|z ss]; [|eauto]. cbn. intros [= <-]. eauto.
  - cbn in E. cbn [set_nth]. destruct ss as [|z ss]; [destruct k; discriminate|].
    specialize (IH k E). destruct (set_nth k st' (z :: ss)) as [|u v] eqn:E2; [destruct k; discriminate|].
    change (last_opt (y :: u :: v)) with (last_opt (u :: v)). change (last_opt (y :: z :: ss)) with (last_opt (z :: ss)). exact IH.
Qed.

Lemma link_stream H l ln k st st' : link_ok H l ln -> nth_error (ln_streams ln) k = Some st -> st_cancelled st' = st_cancelled st ->
  str_ok (nth (ln_cons ln) (groups (H (ln_src ln))) []) (accepted (H (S l))) (ln_phase ln = LRunning)
         (set_nth k (core st') (map core (ln_streams ln))) ->
  link_ok H l (with_streams ln (set_nth k st' (ln_streams ln))).
Proof.
  intros [L1 L2 L3 L4 L5 L6 L7 L8 L9] E Ec So.
  constructor; cbn [with_streams with_serve ln_src ln_cons ln_phase ln_streams ln_serve ln_over]; auto.
  - rewrite map_set. exact So.
  - rewrite set_nth_length. exact L4.
  - intros O. destruct (L5 O) as [F1 F2 F3 F4]. constructor; rewrite ?set_nth_length; auto.
    intros x Lx. destruct (last_set_cancelled _ _ _ _ _ E Ec Lx) as (x' & Lx' & <-). auto.
Qed.

Lemma core_same st st' k ss : nth_error ss k = Some st -> core st' = core st -> set_nth k (core st') (map core ss) = map core ss.
Proof. intros E ->. apply set_nth_same. rewrite nth_error_map, E. reflexivity. Qed.

(** A stream learns which group it fills, or that it fills none. *)
Lemma str_settle L A run cs k q src a A' : str_ok L A run cs -> nth_error cs k = Some (q, src, None) ->
  (A' = A \/ (exists j, A' = A ++ [Group q j])) ->
  (forall j, a = Some j -> In (Group q j) A') ->
  (run -> a = None -> exists g, In g A' /\ (q <= g_seq g)%N) ->
  str_ok L A' run (set_nth k (q, src, Some a) cs).
Proof.
  intros [M1 M2 M3 M4] E EA Ia Ra.
  assert (Inc : forall g, In g A -> In g A') by (intros g I; destruct EA as [->|(j & ->)]; [exact I|apply in_or_app; auto]).
  assert (At : forall x, In x (set_nth k (q, src, Some a) cs) -> x = (q, src, Some a) \/ In x cs).
  { intros x I. apply In_nth_error in I. destruct I as (n & I). destruct (Nat.eq_dec k n) as [->|N].
    - rewrite nth_error_set_eq in I by (apply nth_error_Some; congruence). injection I as <-. auto.
    - rewrite nth_error_set_ne in I by exact N. right. eapply nth_error_In. exact I. }
  assert (Lk : k < length cs) by (apply nth_error_Some; congruence).
  assert (Here : In (q, src, Some a) (set_nth k (q, src, Some a) cs)).
  { apply (nth_error_In _ k). apply nth_error_set_eq. exact Lk. }
  constructor.
  - clear -M1 E. revert k E. induction M1 as [|c g cs L Hc M1 IH]; intros [|k] E; try discriminate; cbn [set_nth].
    + cbn in E. injection E as ->. constructor; auto.
    + constructor; auto.
  - intros q' j src' I. destruct (At _ I) as [[= -> -> Ea]|I']; [apply Ia; auto|]. apply Inc. eauto.
  - intros g Ig. assert (D : In g A \/ g_seq g = q).
    { destruct EA as [->|(j & ->)]; [auto|]. apply in_app_or in Ig. destruct Ig as [Ig|[<-|[]]]; auto. }
    destruct D as [D|Eq]; [|exists src, (Some a); rewrite Eq; exact Here].
    destruct (M3 g D) as (src' & a' & I'). apply In_nth_error in I'. destruct I' as (n & I').
    destruct (Nat.eq_dec k n) as [->|N].
    + rewrite E in I'. injection I' as Eq _ _. exists src, (Some a). rewrite <- Eq. exact Here.
    + exists src', a'. apply (nth_error_In _ n). rewrite nth_error_set_ne by exact N. exact I'.
  - intros R q' src' I. destruct (At _ I) as [[= -> -> Ea]|I']; [apply Ra; auto|].
    destruct (M4 R q' src' I') as (g & Ig & Le). exists g. auto.
Qed.

Lemma Forall2_at {A B} (R : A -> B -> Prop) l m n a : Forall2 R l m -> nth_error l n = Some a -> exists b, nth_error m n = Some b /\ R a b.
Proof. intros H; revert n; induction H; intros [|n] Ha; cbn in *; try congruence; [injection Ha as <-; eauto|eauto]. Qed.

(** Where the contents of a stream come from. *)
Lemma stream_origin w s H l ln k st g g' : (62 <= w)%N -> ninv w s H -> nth_error (nt_links s) l = Some ln ->
  nth_error (ln_streams ln) k = Some st -> nth_error (nth (ln_src ln) (nt_groups s) []) (st_src st) = Some g ->
  hop w g g' ->
  sound_group w g' /\
  exists g0 h0, In g0 (accepted (H 0)) /\ g_seq g0 = st_seq st /\ nth_error (nth 0 (nt_groups s) []) (g_id g0) = Some h0 /\ copy_of h0 g'.
Proof.
  intros W K E Ek Eg Hp. destruct (ni_cont _ _ _ K) as [C1 C2 C3 C4].
  pose proof (C3 _ _ (nth_error_In _ _ Eg)) as Sg. destruct (hop_copy w g g' W Sg Hp) as (Cp & Sg' & Fi).
  split; [exact Sg'|]. pose proof (ni_links _ _ _ K l ln E) as Lk.
  destruct (links_tracks w s H l ln K E) as (Ls & _).
  destruct (nth_error (nt_tracks s) (ln_src ln)) as [t|] eqn:Et; [|apply nth_error_None in Et; lia].
  pose proof (tk_inv _ _ (ni_tracks _ _ _ K) _ t Et) as Ti.
  assert (Gr : exists gr, In gr (accepted (H (ln_src ln))) /\ g_seq gr = st_seq st /\ g_id gr = st_src st).
  { assert (Ec : nth_error (map core (ln_streams ln)) k = Some (core st)) by (rewrite nth_error_map, Ek; reflexivity).
    destruct (Forall2_at _ _ _ k _ (so_map _ _ _ _ (lk_str _ _ _ Lk)) Ec) as (gr & Eg' & Es).
    cbn in Es. injection Es as E1 E2. exists gr. split; [|auto].
    assert (Lc : ln_cons ln < length (groups (H (ln_src ln)))) by exact (lk_cons _ _ _ Lk).
    assert (R : exists y, rd_ok (accepted (H (ln_src ln))) y (nth (ln_cons ln) (groups (H (ln_src ln))) [])).
    { pose proof (ti_readers _ _ Ti) as F. clear -F Lc. revert Lc. generalize (ln_cons ln) as n.
      induction F as [|y o ys os Ho _ IH]; intros [|n] Lc; cbn in *; try lia; [eauto|]. apply IH. lia. }
    destruct R as (y & _ & Inc & _). apply Inc. eapply nth_error_In. exact Eg'. }
  destruct Gr as (gr & Igr & Q1 & Q2).
  destruct (Nat.eq_dec (ln_src ln) 0) as [E0|N0].
  - exists gr, g. rewrite E0 in Igr, Eg. rewrite Q2. split; [exact Igr|]. split; [exact Q1|]. split; [exact Eg|].
    split; [exact Cp|exact Fi].
  - destruct (C4 (ln_src ln) gr g ltac:(lia) Igr ltac:(rewrite Q2; exact Eg)) as (g0 & h0 & I0 & Q0 & Eh & (Cp0 & Fi0)).
    exists g0, h0. split; [exact I0|]. split; [congruence|]. split; [exact Eh|]. split; [eapply copy_trans; eassumption|].
    intros Cl. destruct (Fi Cl) as ((Cg & _) & Ef). destruct (Fi0 Cg) as (Fg & Eg0). split; [exact Fg|congruence].
Qed.

Lemma set_out {A} n (x : A) : forall l, length l <= n -> set_nth n x l = l.
Proof. induction n as [|n IH]; intros [|y l] L; cbn in *; try reflexivity; [lia|]. rewrite IH by lia. reflexivity. Qed.

Lemma others_pass' w s H l e : ninv w s H -> (forall G, twatch G e = G) ->
  forall l' lx, l' <> l -> nth_error (nt_links s) l' = Some lx -> link_ok (ext H (S l) e) l' lx.
Proof.
  intros K Tw l' lx N E'. apply link_ok_ext; [exact (ni_links _ _ _ K l' lx E')|]. split.
  - intros _. rewrite Tw. reflexivity.
  - intros [= Es]. congruence.
Qed.

Lemma step_arrive w m s l k live canc sched r s' x H : (62 <= w)%N -> ninv w s H ->
  nstep m w s (NArrive l k live canc sched r) = (s', x) -> ninv w s' (exts H (no_did x)).
Proof.
  intros W K St. cbn [nstep] in St. destruct (nth_error (nt_links s) l) as [ln|] eqn:E; [|injection St as <- <-; exact K].
  destruct (nth_error (ln_streams ln) k) as [st|] eqn:Ek; [|injection St as <- <-; exact K].
  destruct (nth_error (nth (ln_src ln) (nt_groups s) []) (st_src st)) as [g|] eqn:Eg; [|injection St as <- <-; exact K].
  destruct (serve_group (GroupHeader (ln_id ln) (st_seq st)) (view_of live g) (Send [] sched)) as [sv sd] eqn:Es.
  destruct (possible sv sd r && prefixb (st_seen st) (bytes_of r) && negb (st_over st)) eqn:Po; [|injection St as <- <-; exact K].
  apply andb_true_iff in Po. destruct Po as (Po & _). apply andb_true_iff in Po. destruct Po as (Po & _).
  set (over := canc || match rc_end (rd_stream r) with Open => false | _ => true end) in *.
  set (st' := fun at_ => Strm (st_seq st) (st_src st) (st_cancelled st) (st_lost st) (bytes_of r) over at_) in *.
  pose proof (ni_links _ _ _ K l ln E) as Lk. destruct (links_tracks w s H l ln K E) as (_ & Ls).
  pose proof (ni_cont _ _ _ K) as C.
  assert (Ec : nth_error (map core (ln_streams ln)) k = Some (core st)) by (rewrite nth_error_map, Ek; reflexivity).
  assert (Sound : sound_group w g) by exact (co_sound _ _ _ C _ _ (nth_error_In _ _ Eg)).
  assert (Same : ninv w (update l ln k (st' (st_at st)) s) H).
  { apply (ninv_link w s H l ln _ K E); try reflexivity. eapply link_stream; [exact Lk|exact Ek|reflexivity|].
    rewrite (core_same st _ k _ Ek) by reflexivity. exact (lk_str _ _ _ Lk). }
  destruct (recv_stream w canc r) as [t|h t g'] eqn:Rc; [injection St as <- <-; exact Same|].
  destruct (hop_done w live canc _ _ g sched sv sd r h t g' W Sound Es Po Rc) as (Hq & Hp).
  destruct (stream_origin w s H l ln k st g g' W K E Ek Eg Hp) as (Sg' & g0 & h0 & I0 & Q0 & Eh0 & Cp).
  destruct (st_at st) as [[j|]|] eqn:Ea.
  - (* more of a group *)
    apply pair_equal_spec in St. destruct St as (<- & <-). cbn [no_did exts fold_left].
    set (gs := nth (S l) (nt_groups s) []) in *.
    change (update l ln k (st' (Some (Some j))) (with_groups s (set_nth (S l) (set_nth j g' gs) (nt_groups s))))
      with (with_groups (update l ln k (st' (Some (Some j))) s) (set_nth (S l) (set_nth j g' gs) (nt_groups s))).
    apply ninv_groups; [exact Same|apply set_nth_length|].
    assert (Ij : In (Group (st_seq st) j) (accepted (H (S l)))).
    { apply (so_at _ _ _ _ (lk_str _ _ _ Lk) _ _ (st_src st)). apply (nth_error_In _ k). rewrite Ec. unfold core. rewrite Ea. reflexivity. }
    destruct C as [C1 C2 C3 C4].
    assert (Lg : S l < length (nt_groups s)) by (rewrite (ni_glen _ _ _ K); exact Ls).
    assert (Nl : nth (S l) (set_nth (S l) (set_nth j g' gs) (nt_groups s)) [] = set_nth j g' gs) by (apply nth_set_eq; exact Lg).
    constructor.
    + rewrite nth_set_ne by discriminate. exact C1.
    + intros i Li. destruct (Nat.eq_dec i (S l)) as [->|N]; [|rewrite nth_set_ne by congruence; exact (C2 i Li)].
      rewrite Nl, set_nth_length. exact (C2 _ Li).
    + intros i h' Ih. destruct (Nat.eq_dec i (S l)) as [->|N]; [|rewrite nth_set_ne in Ih by congruence; exact (C3 i h' Ih)].
      rewrite Nl in Ih. apply In_nth_error in Ih. destruct Ih as (n & Ih). destruct (Nat.eq_dec j n) as [->|Nn].
      * destruct (Nat.lt_ge_cases n (length gs)) as [Ln|Ln].
        -- rewrite nth_error_set_eq in Ih by exact Ln. injection Ih as <-. exact Sg'.
        -- rewrite set_out in Ih by exact Ln. exact (C3 _ _ (nth_error_In _ _ Ih)).
      * rewrite nth_error_set_ne in Ih by exact Nn. exact (C3 _ _ (nth_error_In _ _ Ih)).
    + intros i gr h' Li Ig Eh. destruct (Nat.eq_dec i (S l)) as [->|N].
      * rewrite Nl in Eh. rewrite nth_set_ne by discriminate. destruct (Nat.eq_dec j (g_id gr)) as [Ej|Nj].
        -- assert (gr = Group (st_seq st) j).
           { assert (ND : NoDup (map g_id (accepted (H (S l))))) by (rewrite (C2 _ Li); apply seq_NoDup).
             clear -ND Ig Ij Ej. induction (accepted (H (S l))) as [|y A IH]; [contradiction|].
             cbn in ND. inversion ND as [|? ? N1 N2]; subst. destruct Ig as [<-|Ig], Ij as [Ij|Ij]; auto.
             - exfalso. apply N1. apply (in_map g_id) in Ij. exact Ij.
             - subst y. exfalso. apply N1. apply (in_map g_id) in Ig. exact Ig. }
           subst gr. cbn [g_id g_seq] in *.
           assert (Lj : j < length gs).
           { apply nth_error_Some. intros Nj. apply nth_error_None in Nj. rewrite set_out in Eh by exact Nj.
             apply nth_error_None in Nj. congruence. }
           rewrite nth_error_set_eq in Eh by exact Lj. injection Eh as <-. exists g0, h0. auto.
        -- rewrite nth_error_set_ne in Eh by exact Nj. exact (C4 _ gr h' Li Ig Eh).
      * rewrite nth_set_ne in Eh by congruence. rewrite nth_set_ne by discriminate. exact (C4 i gr h' Li Ig Eh).
  - injection St as <- <-. exact Same.
  - assert (Ec' : nth_error (map core (ln_streams ln)) k = Some (st_seq st, st_src st, None)) by (rewrite Ec; unfold core; rewrite Ea; reflexivity).
    assert (Go : ln_phase ln <> LRemoved ->
      (let gs := nth (S l) (nt_groups s) [] in
       let new := Group (gh_sequence h) (length gs) in
       let (s1, x) := at_track m (S l) (TInsert 1 new) s in
       let did := [(S l, (TInsert 1 new, x))] in
       match x with
       | TInserted true =>
           (update l ln k (st' (Some (Some (length gs)))) (with_groups s1 (set_nth (S l) (gs ++ [g']) (nt_groups s1))), NOut did (NGiven (ANew new)))
       | TInserted false => (update l ln k (st' (Some None)) s1, NOut did (NGiven (ARefused Old)))
       | _ => (update l ln k (st' (Some None)) s1, NOut did (NGiven APanics))
       end) = (s', x) -> ninv w s' (exts H (no_did x))).
    { clear St. intros Ph St. rewrite Hq in St. set (gs := nth (S l) (nt_groups s) []) in *. cbv zeta in St.
      set (new := Group (st_seq st) (length gs)) in *.
      destruct (at_track m (S l) (TInsert 1 new) s) as [s1 y] eqn:A.
      destruct (nth_error (nt_tracks s) (S l)) as [u|] eqn:Eu; [|apply nth_error_None in Eu; lia].
      destruct (at_track_eq _ _ _ _ _ _ _ Eu A) as (u' & Stu & Es1).
      pose proof (ni_prod _ _ _ K l ln u E Eu Ph) as Pr.
      pose proof (tk_inv _ _ (ni_tracks _ _ _ K) _ u Eu) as Ti.
      destruct (tracks_step _ _ _ _ _ _ _ (ni_tracks _ _ _ K) Ls A) as (Tk & Eg1 & El1 & Elen).
      pose proof (insert_cases new (accepted (H (S l))) (ts_closed u) (ti_inc _ _ Ti)) as Ins.
      cbn [tstep] in Stu. unfold idle in Stu. rewrite Pr in Stu. rewrite (ti_latest _ _ Ti), Ins in Stu.
      assert (Prods : forall l' lx t, nth_error (nt_links s) l' = Some lx -> nth_error (nt_tracks s1) (S l') = Some t ->
                 (l' = l -> ln_phase ln <> LRemoved) -> (l' <> l -> ln_phase lx <> LRemoved) -> get (ts_prods t) 1 = Some Idle).
      { intros l' lx v E' Ev P1 P2. destruct (prods_kept m (S l) (TInsert 1 new) s s1 _ (S l') v eq_refl Ls A Ev) as (u0 & Eu0 & ->).
        apply (ni_prod _ _ _ K l' lx u0 E' Eu0). destruct (Nat.eq_dec l' l) as [->|N]; [|auto].
        assert (lx = ln) by congruence. subst lx. auto. }
      assert (Twq : forall G, twatch G (TInsert 1 new, y) = G) by (intros; destruct y; reflexivity).
      (* nothing was added *)
      assert (Quiet : accept_of (TInsert 1 new, y) = [] ->
                (ln_phase ln = LRunning -> exists g, In g (accepted (H (S l))) /\ (st_seq st <= g_seq g)%N) ->
                ninv w (update l ln k (st' (Some None)) s1) (ext H (S l) (TInsert 1 new, y))).
      { intros Ac Ref. apply (ninv_set w s H s1 _ l ln _ K E Tk El1); try reflexivity.
        - rewrite Eg1, Elen. exact (ni_glen _ _ _ K).
        - rewrite Eg1. apply cont_ext; [exact C|auto|discriminate].
        - apply others_pass' with (w := w) (s := s); assumption.
        - assert (Lk1 : link_ok (ext H (S l) (TInsert 1 new, y)) l ln).
          { apply link_ok_ext; [exact Lk|]. split; [intros _; rewrite Twq; reflexivity|]. intros _. split; [exact Ac|].
            intros v. destruct y; reflexivity. }
          eapply link_stream; [exact Lk1|exact Ek|reflexivity|]. cbn [core st' st_seq st_src st_at].
          eapply str_settle; [exact (lk_str _ _ _ Lk1)|exact Ec'|left; reflexivity|discriminate|].
          intros R _. rewrite ext_same, accepted_snoc, Ac, app_nil_r. auto.
        - exact Prods. }
      destruct (ts_closed u) as [cl|] eqn:Cl.
      - injection Stu as _ <-. injection St as <- <-. apply Quiet; [reflexivity|]. intros R.
        pose proof (lk_open _ _ _ Lk R) as V. rewrite <- (ti_closed _ _ Ti) in V. congruence.
      - destruct (forallb (fun h => (g_seq h <? g_seq new)%N) (accepted (H (S l)))) eqn:Fb.
        + injection Stu as _ <-. apply pair_equal_spec in St. destruct St as (<- & <-). cbn [no_did exts fold_left fst snd].
          set (e := (TInsert 1 new, TInserted true)) in *.
          assert (Acc : accepted (ext H (S l) e (S l)) = accepted (H (S l)) ++ [new]) by (rewrite ext_same, accepted_snoc; reflexivity).
          assert (Lg : S l < length (nt_groups s)) by (rewrite (ni_glen _ _ _ K); exact Ls).
          set (s2 := with_groups s1 (set_nth (S l) (gs ++ [g']) (nt_groups s1))).
          assert (Nl : nth (S l) (nt_groups s2) [] = gs ++ [g']) by (unfold s2; cbn [with_groups nt_groups]; rewrite Eg1; apply nth_set_eq; exact Lg).
          assert (No : forall i, i <> S l -> nth i (nt_groups s2) [] = nth i (nt_groups s) [])
            by (intros i N; unfold s2; cbn [with_groups nt_groups]; rewrite Eg1; apply nth_set_ne; congruence).
          apply (ninv_set w s H s2 _ l ln _ K E); try reflexivity.
          * destruct Tk. constructor; assumption.
          * exact El1.
          * unfold s2. cbn [with_groups nt_groups nt_tracks]. rewrite set_nth_length, Eg1, Elen. exact (ni_glen _ _ _ K).
          * destruct C as [C1 C2 C3 C4]. constructor.
            -- rewrite No, ext_other by discriminate. exact C1.
            -- intros i Li. destruct (Nat.eq_dec i (S l)) as [->|N]; [|rewrite No, ext_other by congruence; exact (C2 i Li)].
               rewrite Acc, Nl, map_app, app_length, Nat.add_1_r, seq_S, (C2 _ Li). reflexivity.
            -- intros i h' Ih. destruct (Nat.eq_dec i (S l)) as [->|N]; [|rewrite No in Ih by congruence; exact (C3 i h' Ih)].
               rewrite Nl in Ih. apply in_app_or in Ih. destruct Ih as [Ih|[<-|[]]]; [exact (C3 _ _ Ih)|exact Sg'].
            -- intros i gr h' Li Ig Eh. rewrite (No 0), (ext_other H (S l) e 0) by discriminate.
               destruct (Nat.eq_dec i (S l)) as [->|N].
               ++ rewrite Acc in Ig. rewrite Nl in Eh. apply in_app_or in Ig. destruct Ig as [Ig|[<-|[]]].
                  ** assert (Lid : g_id gr < length gs).
                     { apply (in_map g_id) in Ig. rewrite (C2 _ Li) in Ig. apply in_seq in Ig. fold gs in Ig. lia. }
                     rewrite nth_error_app1 in Eh by exact Lid. exact (C4 _ gr h' Li Ig Eh).
                  ** cbn [g_id new] in Eh. rewrite nth_error_app2, Nat.sub_diag in Eh by lia. injection Eh as <-.
                     exists g0, h0. auto.
               ++ rewrite ext_other in Ig by exact N. rewrite No in Eh by exact N. exact (C4 i gr h' Li Ig Eh).
          * apply others_pass' with (w := w) (s := s); assumption.
          * destruct Lk as [L1 L2 L3 L4 L5 L6 L7 L8 L9].
            assert (Hso : ext H (S l) e (ln_src ln) = H (ln_src ln)) by (apply ext_other; lia).
            constructor; cbn [with_streams with_serve ln_src ln_cons ln_phase ln_streams ln_serve ln_over]; rewrite ?Hso; auto.
            -- rewrite Acc, map_set. cbn [core st' st_seq st_src st_at].
               eapply str_settle; [exact L3|exact Ec'|right; eexists; reflexivity| |discriminate].
               intros j [= <-]. apply in_or_app. right. left. reflexivity.
            -- rewrite set_nth_length. exact L4.
            -- intros O. destruct (L5 O) as [F1 F2 F3 F4]. constructor; rewrite ?set_nth_length; auto.
               intros z Lz. destruct (last_set_cancelled k _ st (st' (Some (Some (length gs)))) z Ek eq_refl Lz) as (z' & Lz' & <-). auto.
            -- intros R. rewrite ext_same, tverdict_snoc. cbn. auto.
            -- intros er. rewrite ext_same, tverdict_snoc. cbn. apply L7.
            -- rewrite ext_same, finished_snoc. intros [F|(p & Fp)]; [auto|discriminate].
          * exact Prods.
        + injection Stu as _ <-. injection St as <- <-. apply Quiet; [reflexivity|]. intros _.
          assert (Fe : exists h, In h (accepted (H (S l))) /\ (g_seq h <? g_seq new)%N = false).
          { clear -Fb. induction (accepted (H (S l))) as [|y A IH]; [discriminate|]. cbn in Fb. destruct (g_seq y <? st_seq st)%N eqn:Ey.
            - destruct (IH Fb) as (h & Ih & Eh). exists h. split; [right; exact Ih|exact Eh].
            - exists y. split; [left; reflexivity|exact Ey]. }
          destruct Fe as (h' & Ih' & Eh'). exists h'. split; [exact Ih'|]. apply N.ltb_ge in Eh'. exact Eh'. }
    destruct (ln_phase ln) eqn:Ph.
    + apply Go; [discriminate|exact St].
    + apply Go; [discriminate|exact St].
    + clear Go. injection St as <- <-. cbn [no_did exts fold_left]. apply (ninv_link w s H l ln _ K E); try reflexivity.
      eapply link_stream; [exact Lk|exact Ek|reflexivity|]. cbn [core st' st_seq st_src st_at].
      eapply str_settle; [exact (lk_str _ _ _ Lk)|exact Ec'|left; reflexivity|discriminate|]. rewrite Ph. discriminate.
Qed.

(** * Every step, every execution *)

Lemma ninv_step w m s o s' x H : (62 <= w)%N -> modest o -> ninv w s H -> nstep m w s o = (s', x) -> ninv w s' (exts H (no_did x)).
Proof.
  intros W M K St. destruct o.
  - eapply step_group; eassumption.
  - eapply step_fill; eassumption.
  - eapply step_use; eassumption.
  - eapply step_open; eassumption.
  - eapply step_poll; eassumption.
  - eapply step_done; eassumption.
  - eapply step_stop; eassumption.
  - eapply step_arrive; eassumption.
  - eapply step_end; eassumption.
  - eapply step_remove; eassumption.
Qed.

Lemma nrun_ok w m ops : forall s H, (62 <= w)%N -> Forall modest ops -> ninv w s H ->
  ninv w (fst (nrun m w s ops)) (fold_left (fun H e => exts H (no_did (snd e))) (snd (nrun m w s ops)) H).
Proof.
  induction ops as [|o ops IH]; intros s H W M K; [exact K|]. inversion M; subst. cbn [nrun].
  destruct (nstep m w s o) as [s1 x] eqn:St. specialize (IH s1 (exts H (no_did x)) W H3 (ninv_step w m s o s1 x H W H2 K St)).
  destruct (nrun m w s1 ops) as [s2 tr]. exact IH.
Qed.

Lemma ninv_run w m ops : (62 <= w)%N -> Forall modest ops ->
  ninv w (fst (nrun m w net_new ops)) (hist (snd (nrun m w net_new ops))).
Proof. intros W M. exact (nrun_ok w m ops net_new _ W M (ninv_new w)). Qed.
