(** The tree of copies: invariants. *)
From Coq Require Import NArith ZArith List Lia Bool Arith.
From Coq Require Import Init.Byte Strings.Byte.
From Coq Require Import ZifyBool ZifyNat ZifyN.
From Verif.Model Require Import Base Coding Message ErrorCode Stream Frame FrameSys TrackSys Publisher Transfer Net.
From Verif.Spec Require Import CodingSpec MessageSpec StreamSpec TrackSpec TransferSpec NetSpec.
From Verif.Proofs Require Import BaseP TableP TrackP TransferP RelayP NetP.
Import ListNotations.
Open Scope nat_scope.

(** * Histories *)

Definition hists := nat -> list tevent.
Definition ext (H : hists) (i : nat) (e : tevent) : hists := fun j => if Nat.eqb j i then H j ++ [e] else H j.
Definition exts (H : hists) (did : list (nat * tevent)) : hists := fold_left (fun H d => ext H (fst d) (snd d)) did H.
Definition hist (tr : list nevent) : hists := fold_left (fun H e => exts H (no_did (snd e))) tr (fun _ => []).

Lemma exts_at did : forall H i, exts H did i = H i ++ flat_map (fun d => if Nat.eqb (fst d) i then [snd d] else []) did.
Proof.
  induction did as [|d did IH]; intros H i; [symmetry; apply app_nil_r|].
  change (exts H (d :: did) i) with (exts (ext H (fst d) (snd d)) did i). cbn [flat_map]. rewrite IH. unfold ext. rewrite (Nat.eqb_sym (fst d) i). destruct (Nat.eqb i (fst d)); [|reflexivity].
  rewrite <- app_assoc. reflexivity.
Qed.

Lemma hist_snoc tr e : hist (tr ++ [e]) = exts (hist tr) (no_did (snd e)).
Proof. unfold hist. rewrite fold_left_app. reflexivity. Qed.

Lemma hist_history tr : forall i, hist tr i = history i tr.
Proof.
  induction tr as [|e tr IH] using rev_ind; intros i; [reflexivity|].
  rewrite hist_snoc, exts_at, IH. unfold history. rewrite flat_map_app. cbn. rewrite app_nil_r. reflexivity.
Qed.

Lemma ext_same H i e : ext H i e i = H i ++ [e].
Proof. unfold ext. rewrite Nat.eqb_refl. reflexivity. Qed.
Lemma ext_other H i e j : j <> i -> ext H i e j = H j.
Proof. intros N. unfold ext. destruct (Nat.eqb_spec j i); congruence. Qed.

(** * One link *)

Definition core (st : stream) : N * nat * option (option nat) := (st_seq st, st_src st, st_at st).

Record str_ok (L A : list group) (running : Prop) (cs : list (N * nat * option (option nat))) : Prop := {
  so_map : Forall2 (fun c g => fst c = (g_seq g, g_id g)) cs L;
  so_at : forall q j k, In (q, k, Some (Some j)) cs -> In (Group q j) A;
  so_acc : forall g, In g A -> exists k a, In (g_seq g, k, a) cs;
  so_ref : running -> forall q k, In (q, k, Some None) cs -> exists g, In g A /\ (q <= g_seq g)%N }.

Record fut_ok (t : tserve) (ss : list stream) : Prop := {
  fo_over : tv_over t = false;
  fo_new : forall n, tv_new t = Some n -> S n = length ss;
  fo_old : forall n, tv_old t = Some n -> S n < length ss;
  fo_last : forall st, last_opt ss = Some st -> st_cancelled st = false }.

Definition finished_in (h : list tevent) : Prop := exists p, In (TFinish p, TUnit) h.

Record link_ok (H : hists) (l : nat) (ln : link) : Prop := {
  lk_src : ln_src ln <= l;
  lk_cons : ln_cons ln < length (groups (H (ln_src ln)));
  lk_str : str_ok (nth (ln_cons ln) (groups (H (ln_src ln))) []) (accepted (H (S l))) (ln_phase ln = LRunning) (map core (ln_streams ln));
  lk_count : tv_count (ln_serve ln) = length (ln_streams ln);
  lk_fut : ln_over ln = None -> fut_ok (ln_serve ln) (ln_streams ln);
  lk_open : ln_phase ln = LRunning -> tverdict (H (S l)) = None;
  lk_why : forall e, tverdict (H (S l)) = Some (Failed e) -> e = Cancel;
  lk_fin : finished_in (H (S l)) -> ln_over ln = Some None;
  lk_ret : ln_over ln = Some None -> finished_in (H (ln_src ln)) }.

(** An event that does not concern a link. *)
Definition passes (i : nat) (G : list (list group)) (e : tevent) (l : nat) (ln : link) : Prop :=
  (ln_src ln = i -> nth (ln_cons ln) (twatch G e) [] = nth (ln_cons ln) G []) /\
  (S l = i -> accept_of e = [] /\ (forall v, tclosing v e = v)).

Lemma set_nth_len_le {A} n (x : A) l : length (set_nth n x l) = length l.
Proof. apply set_nth_length. Qed.

Lemma twatch_length G e : length G <= length (twatch G e).
Proof. destruct e as [[] []]; cbn; try lia; repeat match goal with |- context[match ?x with _ => _ end] => destruct x end; rewrite ?app_length, ?set_nth_length; cbn; lia. Qed.

Lemma finished_snoc h e : finished_in (h ++ [e]) <-> finished_in h \/ exists p, e = (TFinish p, TUnit).
Proof.
  unfold finished_in. split.
  - intros (p & Hp). apply in_app_or in Hp. destruct Hp as [Hp|[ ->|[]]]; [left|right]; eauto.
  - intros [(p & Hp)|(p & ->)]; exists p; apply in_or_app; [left; exact Hp|right; left; reflexivity].
Qed.

Lemma link_ok_ext H i e l ln : link_ok H l ln -> passes i (groups (H i)) e l ln -> link_ok (ext H i e) l ln.
Proof.
  intros K (P1 & P2).
  assert (G : nth (ln_cons ln) (groups (ext H i e (ln_src ln))) [] = nth (ln_cons ln) (groups (H (ln_src ln))) [] /\
              length (groups (H (ln_src ln))) <= length (groups (ext H i e (ln_src ln)))).
  { destruct (Nat.eq_dec (ln_src ln) i) as [E|E].
    - rewrite E, ext_same, groups_snoc. rewrite <- E. rewrite <- E in P1. split; [apply P1; reflexivity|]. apply twatch_length.
    - rewrite ext_other by exact E. split; [reflexivity|lia]. }
  destruct G as (G & GL).
  assert (A : accepted (ext H i e (S l)) = accepted (H (S l)) /\ tverdict (ext H i e (S l)) = tverdict (H (S l)) /\
              (finished_in (ext H i e (S l)) -> finished_in (H (S l)))).
  { destruct (Nat.eq_dec (S l) i) as [E|E].
    - destruct (P2 E) as (A1 & A2). rewrite <- E, ext_same, accepted_snoc, tverdict_snoc, A1, A2, app_nil_r.
      split; [reflexivity|]. split; [reflexivity|]. intros F. apply finished_snoc in F. destruct F as [F|(p & ->)]; [exact F|].
      specialize (A2 None). discriminate.
    - rewrite ext_other by exact E. auto. }
  destruct A as (A & V & F). destruct K. constructor; rewrite ?G, ?A, ?V; auto; try lia.
  intros O. specialize (lk_ret0 O). destruct (Nat.eq_dec (ln_src ln) i) as [E|E].
  - rewrite E in *. rewrite ext_same. apply finished_snoc. auto.
  - rewrite ext_other by exact E. exact lk_ret0.
Qed.

(** * Tracks *)

Record tracks_ok (s : net) (H : hists) : Prop := {
  tk_len : length (nt_tracks s) = S (length (nt_links s));
  tk_inv : forall i t, nth_error (nt_tracks s) i = Some t -> tinv t (H i);
  tk_none : forall i, length (nt_tracks s) <= i -> H i = [] }.

Lemma at_track_eq m i o s s' x t : nth_error (nt_tracks s) i = Some t -> at_track m i o s = (s', x) ->
  exists t', tstep m t o = (t', x) /\ s' = with_tracks s (set_nth i t' (nt_tracks s)).
Proof.
  intros E A. unfold at_track in A. rewrite E in A. destruct (tstep m t o) as [t' y]. injection A as <- <-. eauto.
Qed.

Lemma tracks_step m i o s s' x H : tracks_ok s H -> i < length (nt_tracks s) -> at_track m i o s = (s', x) ->
  tracks_ok s' (ext H i (o, x)) /\ nt_groups s' = nt_groups s /\ nt_links s' = nt_links s /\
  length (nt_tracks s') = length (nt_tracks s).
Proof.
  intros K L A. destruct (nth_error (nt_tracks s) i) as [t|] eqn:E; [|apply nth_error_None in E; lia].
  destruct (at_track_eq m i o s s' x t E A) as (t' & St & ->). destruct K as [K1 K2 K3].
  cbn [nt_groups nt_links nt_tracks with_tracks]. rewrite set_nth_length. split; [|auto].
  constructor; cbn [nt_groups nt_links nt_tracks with_tracks].
  - rewrite set_nth_length. exact K1.
  - intros j u. destruct (Nat.eq_dec j i) as [->|N].
    + rewrite nth_error_set_eq by exact L. intros [= <-]. rewrite ext_same. eapply tinv_step; eauto.
    + rewrite nth_error_set_ne by congruence. rewrite ext_other by exact N. apply K2.
  - intros j. rewrite set_nth_length. intros Lj. rewrite ext_other by lia. apply K3. exact Lj.
Qed.

(** * Contents *)

Record cont_ok (w : N) (gs : list (list rgroup)) (H : hists) : Prop := {
  co_ids0 : Forall (fun g => g_id g < length (nth 0 gs [])) (accepted (H 0));
  co_ids : forall i, 1 <= i -> map g_id (accepted (H i)) = seq 0 (length (nth i gs []));
  co_sound : forall i h, In h (nth i gs []) -> sound_group w h;
  co_copy : forall i g h, 1 <= i -> In g (accepted (H i)) -> nth_error (nth i gs []) (g_id g) = Some h ->
    exists g0 h0, In g0 (accepted (H 0)) /\ g_seq g0 = g_seq g /\ nth_error (nth 0 gs []) (g_id g0) = Some h0 /\ copy_of h0 h }.

(** Events that change nothing, or add groups at node 0. *)
Lemma cont_ext w gs H i e : cont_ok w gs H -> (1 <= i -> accept_of e = []) ->
  (i = 0 -> Forall (fun g => g_id g < length (nth 0 gs [])) (accept_of e)) -> cont_ok w gs (ext H i e).
Proof.
  intros [C1 C2 C3 C4] P1 P0.
  assert (A : forall j, 1 <= j -> accepted (ext H i e j) = accepted (H j)).
  { intros j Lj. destruct (Nat.eq_dec j i) as [->|N]; [|rewrite ext_other by exact N; reflexivity].
    rewrite ext_same, accepted_snoc, P1, app_nil_r by exact Lj. reflexivity. }
  assert (A0 : incl (accepted (H 0)) (accepted (ext H i e 0)) /\
               Forall (fun g => g_id g < length (nth 0 gs [])) (accepted (ext H i e 0))).
  { destruct (Nat.eq_dec 0 i) as [<-|N]; [|rewrite ext_other by exact N; split; [apply incl_refl|exact C1]].
    rewrite ext_same, accepted_snoc. split; [apply incl_appl, incl_refl|]. apply Forall_app. auto. }
  destruct A0 as (A0 & A1). constructor; auto.
  - intros j Lj. rewrite A by exact Lj. apply C2. exact Lj.
  - intros j g h Lj. rewrite A by exact Lj. intros Hg Hh. destruct (C4 j g h Lj Hg Hh) as (g0 & h0 & I0 & R). exists g0, h0. auto.
Qed.

(** * Everything *)

Record ninv (w : N) (s : net) (H : hists) : Prop := {
  ni_tracks : tracks_ok s H;
  ni_links : forall l ln, nth_error (nt_links s) l = Some ln -> link_ok H l ln;
  ni_uniq : forall l l' ln ln', nth_error (nt_links s) l = Some ln -> nth_error (nt_links s) l' = Some ln' ->
    ln_src ln = ln_src ln' -> ln_cons ln = ln_cons ln' -> l = l';
  ni_prod : forall l ln t, nth_error (nt_links s) l = Some ln -> nth_error (nt_tracks s) (S l) = Some t ->
    ln_phase ln <> LRemoved -> get (ts_prods t) 1 = Some Idle;
  ni_glen : length (nt_groups s) = length (nt_tracks s);
  ni_cont : cont_ok w (nt_groups s) H }.

Lemma ninv_new w : ninv w net_new (fun _ => []).
Proof.
  constructor.
  - constructor; [reflexivity| |reflexivity]. intros [|[|i]] t E; try discriminate. injection E as <-.
    constructor; try reflexivity; constructor.
  - intros [|l] ln E; discriminate.
  - intros [|l] l' ln ln' E; discriminate.
  - intros [|l] ln t E; discriminate.
  - reflexivity.
  - constructor; cbn.
    + constructor.
    + intros [|[|i]] L; [lia| |]; reflexivity.
    + intros [|[|i]] h []. 
    + intros i g h _ [].
Qed.

(** * Turning the loop *)

Lemma core_at f k ss : (forall st, core (f st) = core st) -> map core (at_stream f k ss) = map core ss.
Proof.
  intros Hf. unfold at_stream. destruct (nth_error ss k) as [st|] eqn:E; [|reflexivity].
  rewrite map_set, Hf. apply set_nth_same. rewrite nth_error_map, E. reflexivity.
Qed.
Lemma core_cancel_all ks : forall ss, map core (cancel_all ks ss) = map core ss.
Proof.
  unfold cancel_all. induction ks as [|k ks IH]; intros ss; [reflexivity|]. cbn. rewrite IH. apply core_at. reflexivity.
Qed.
Lemma at_stream_length f k ss : length (at_stream f k ss) = length ss.
Proof. unfold at_stream. destruct (nth_error ss k); [apply set_nth_length|reflexivity]. Qed.
Lemma cancel_all_length ks : forall ss, length (cancel_all ks ss) = length ss.
Proof. unfold cancel_all. induction ks as [|k ks IH]; intros ss; [reflexivity|]. cbn. rewrite IH. apply at_stream_length. Qed.

Lemma last_opt_set {A} k (x : A) : forall l, S k < length l -> last_opt (set_nth k x l) = last_opt l.
Proof.
  induction k as [|k IH]; intros [|y l] L; cbn [length] in L; try lia.
  - cbn [set_nth]. destruct l as [|z l]; [cbn in L; lia|]. reflexivity.
  - cbn [set_nth]. destruct l as [|z l]; [cbn in L; lia|]. specialize (IH (z :: l) ltac:(cbn [length] in *; lia)).
    destruct (set_nth k x (z :: l)) as [|u v] eqn:E; [exfalso; destruct k; discriminate|].
    change (last_opt (y :: u :: v)) with (last_opt (u :: v)). change (last_opt (y :: z :: l)) with (last_opt (z :: l)). exact IH.
Qed.

Lemma last_cancel_all ks : forall ss, Forall (fun k => S k < length ss) ks -> last_opt (cancel_all ks ss) = last_opt ss.
Proof.
  unfold cancel_all. induction ks as [|k ks IH]; intros ss F; [reflexivity|]. inversion F; subst. cbn.
  rewrite IH.
  - unfold at_stream. destruct (nth_error ss k); [apply last_opt_set; assumption|reflexivity].
  - rewrite at_stream_length. assumption.
Qed.

Lemma last_lose k ss st : last_opt (at_stream lose k ss) = Some st -> exists st', last_opt ss = Some st' /\ st_cancelled st' = st_cancelled st.
Proof.
  unfold at_stream. destruct (nth_error ss k) as [x|] eqn:E; [|eauto].
  revert k E. induction ss as [|y ss IH]; intros k E; [destruct k; discriminate|].
  destruct k as [|k].
  - cbn in E. injection E as ->. cbn [set_nth]. destruct ss as [|z ss]; [|eauto]. cbn. intros [= <-]. eauto.
  - cbn in E. cbn [set_nth]. destruct ss as [|z ss]; [destruct k; discriminate|].
    specialize (IH k E). destruct (set_nth k (lose x) (z :: ss)) as [|u v] eqn:E2; [destruct k; discriminate|].
    change (last_opt (y :: u :: v)) with (last_opt (u :: v)). change (last_opt (y :: z :: ss)) with (last_opt (z :: ss)). exact IH.
Qed.

(** What a turn leaves alone. *)
Lemma turn_keeps m ln o ss ln' x : turn m ln o ss = (ln', x) ->
  ln_src ln' = ln_src ln /\ ln_cons ln' = ln_cons ln /\ ln_id ln' = ln_id ln /\ ln_phase ln' = ln_phase ln /\
  map core (ln_streams ln') = map core ss /\ length (ln_streams ln') = length ss /\
  (ln_over ln' = None -> ln_over ln = None).
Proof.
  unfold turn. destruct (sstep m (ln_prio ln) (ln_serve ln) o) as [t y]. destruct y; intros [= <- <-];
    cbn [with_serve ln_src ln_cons ln_id ln_phase ln_streams ln_over];
    rewrite ?core_cancel_all, ?cancel_all_length; repeat split; auto; discriminate.
Qed.

Lemma turn_group m ln g ln' x : ln_over ln = None -> fut_ok (ln_serve ln) (ln_streams ln) ->
  tv_count (ln_serve ln) = length (ln_streams ln) ->
  turn m ln (SGroup (g_seq g)) (ln_streams ln ++ [strm_new g]) = (ln', x) ->
  tv_count (ln_serve ln') = length (ln_streams ln') /\ (ln_over ln' = None -> fut_ok (ln_serve ln') (ln_streams ln')) /\
  ln_over ln' <> Some None.
Proof.
  intros O [F1 F2 F3 F4] C T. unfold turn, sstep in T. rewrite F1 in T.
  destruct (stream_priority m (ln_prio ln) (g_seq g)) as [p|].
  - destruct (tv_new (ln_serve ln)) as [n|] eqn:N.
    + injection T as <- <-. cbn [with_serve ln_serve ln_streams ln_over tv_count].
      rewrite cancel_all_length, app_length. cbn [length]. split; [lia|]. rewrite O. split; [|discriminate]. intros _.
      specialize (F2 _ eq_refl).
      constructor; cbn [tv_over tv_new tv_old]; rewrite ?cancel_all_length, ?app_length; cbn [length]; auto.
      * intros k [= <-]. lia.
      * intros k [= <-]. lia.
      * intros st. rewrite last_cancel_all, last_opt_snoc; [intros [= <-]; reflexivity|].
        rewrite app_length. cbn [length]. destruct (tv_old (ln_serve ln)) as [k|]; cbn [opt_list]; constructor; [|constructor].
        specialize (F3 _ eq_refl). lia.
    + injection T as <- <-. cbn [with_serve ln_serve ln_streams ln_over tv_count cancel_all fold_left].
      rewrite app_length. cbn [length]. split; [lia|]. rewrite O. split; [|discriminate]. intros _.
      constructor; cbn [tv_over tv_new tv_old]; rewrite ?app_length; cbn [length]; auto.
      * intros k [= <-]. lia.
      * intros k E. specialize (F3 _ E). lia.
      * intros st. rewrite last_opt_snoc. intros [= <-]. reflexivity.
  - injection T as <- <-. cbn [with_serve ln_serve ln_streams ln_over tv_count left_loop].
    rewrite cancel_all_length, app_length. cbn [length]. split; [lia|]. split; discriminate.
Qed.

Lemma turn_other m ln o ss ln' x : ln_over ln = None -> fut_ok (ln_serve ln) (ln_streams ln) ->
  tv_count (ln_serve ln) = length (ln_streams ln) -> length ss = length (ln_streams ln) ->
  (forall st, last_opt ss = Some st -> st_cancelled st = false) ->
  (forall q, o <> SGroup q) ->
  turn m ln o ss = (ln', x) ->
  tv_count (ln_serve ln') = length (ln_streams ln') /\ (ln_over ln' = None -> fut_ok (ln_serve ln') (ln_streams ln')) /\
  (ln_over ln' = Some None -> o = SNoMore).
Proof.
  intros O [F1 F2 F3 F4] C Ls Lc No T. unfold turn, sstep in T. rewrite F1 in T.
  destruct o as [q|e| | | |].
  - exfalso. exact (No q eq_refl).
  - injection T as <- <-. cbn [with_serve ln_serve ln_streams ln_over tv_count left_loop]. rewrite cancel_all_length.
    split; [lia|]. split; discriminate.
  - destruct (tv_old (ln_serve ln)) as [a|] eqn:Eo, (tv_new (ln_serve ln)) as [b|] eqn:En; injection T as <- <-;
      cbn [with_serve ln_serve ln_streams ln_over tv_count left_loop]; rewrite ?cancel_all_length;
      (split; [lia|]); (split; [|auto]); intros O'; try discriminate O';
      (constructor; [exact F1|rewrite En, Ls; exact F2|rewrite Eo, Ls; exact F3|exact Lc]).
  - destruct (tv_old (ln_serve ln)) as [a|] eqn:Eo; injection T as <- <-;
      cbn [with_serve ln_serve ln_streams ln_over tv_count left_loop cancel_all fold_left];
      (split; [lia|]); (split; [|congruence]); intros O'.
    + constructor; cbn [tv_over tv_new tv_old]; [reflexivity|rewrite Ls; exact F2|discriminate|exact Lc].
    + constructor; [exact F1|rewrite Ls; exact F2|rewrite Eo, Ls; exact F3|exact Lc].
  - destruct (tv_new (ln_serve ln)) as [b|] eqn:En; injection T as <- <-;
      cbn [with_serve ln_serve ln_streams ln_over tv_count left_loop]; rewrite ?cancel_all_length;
      (split; [lia|]); (split; [|congruence]); intros O'.
    + constructor; cbn [tv_over tv_new tv_old]; [reflexivity|discriminate|discriminate|].
      intros st. rewrite last_cancel_all; [apply Lc|]. rewrite Ls.
      destruct (tv_old (ln_serve ln)) as [k|]; cbn [opt_list]; constructor; [|constructor]. apply F3. reflexivity.
    + constructor; [exact F1|rewrite En, Ls; exact F2|rewrite Ls; exact F3|exact Lc].
  - injection T as <- <-. cbn [with_serve ln_serve ln_streams ln_over tv_count left_loop]. rewrite cancel_all_length.
    split; [lia|]. split; discriminate.
Qed.
