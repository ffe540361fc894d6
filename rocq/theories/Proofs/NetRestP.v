(** The tree of copies: rest can always be reached. *)
From Coq Require Import NArith ZArith Arith List Lia Bool.
From Coq Require Import Init.Byte Strings.Byte.
From Verif.Model Require Import Base Coding Message ErrorCode Stream Frame FrameSys TrackSys Publisher Transfer Net.
From Verif.Spec Require Import CodingSpec MessageSpec StreamSpec TrackSpec TransferSpec NetSpec.
From Verif.Proofs Require Import BaseP CodingP MessageP StreamP TableP TrackP TransferP TransferTop RelayP NetP NetSysP NetStepP NetTopP.
Import ListNotations.
Open Scope nat_scope.

(** * Two more invariants *)

(** A publisher that has not left its loop has its consumer. *)
Definition ok_cons (s : net) : Prop := forall l ln, nth_error (nt_links s) l = Some ln -> ln_over ln = None ->
  exists t p, nth_error (nt_tracks s) (ln_src ln) = Some t /\ get (ts_cons t) (ln_cons ln) = Some p.

(** A receiver that waits for the header has been given a beginning of it. *)
Definition seen_ok (id : N) (st : stream) : Prop := st_at st = None -> st_over st = false ->
  forall h, group_header_encode (GroupHeader id (st_seq st)) = Val h -> prefix (st_seen st) (x00 :: wire h).
Definition ok_seen (s : net) : Prop := forall l ln, nth_error (nt_links s) l = Some ln -> Forall (seen_ok (ln_id ln)) (ln_streams ln).

Lemma cons_kept m t o t' x c p : tstep m t o = (t', x) -> get (ts_cons t) c = Some p -> o <> TCDrop c ->
  exists p', get (ts_cons t') c = Some p'.
Proof.
  intros St G N.
  assert (Same : ts_cons t' = ts_cons t -> exists p', get (ts_cons t') c = Some p') by (intros ->; eauto).
  assert (Snoc : forall y, get (ts_cons t ++ [y]) c = Some p).
  { intros y. rewrite get_app. assert (c < length (ts_cons t)) by (eapply get_lt; exact G). destruct (Nat.eqb_spec c (length (ts_cons t))); [lia|exact G]. }
  destruct o; cbn in St;
    repeat match goal with
           | H : (if ?b then _ else _) = _ |- _ => destruct b
           | H : context[match ?e with _ => _ end] |- _ => destruct e eqn:?; try discriminate
           end; injection St as <- <-; try (apply Same; reflexivity); cbn [twith_cons ts_cons]; try (eexists; apply Snoc).
  - destruct (Nat.eq_dec c0 c) as [->|Nc]; [erewrite get_set_eq by eassumption; eauto|rewrite get_set_ne by exact Nc; eauto].
  - rewrite get_set_ne by congruence. eauto.
Qed.

Lemma track_cons m i o s s' x : ok_cons s -> at_track m i o s = (s', x) ->
  (forall l ln, nth_error (nt_links s) l = Some ln -> ln_over ln = None -> ln_src ln = i -> o <> TCDrop (ln_cons ln)) ->
  ok_cons s' /\ nt_links s' = nt_links s /\ nt_groups s' = nt_groups s.
Proof.
  intros K A D. destruct (nth_error (nt_tracks s) i) as [t|] eqn:Et.
  - destruct (at_track_eq _ _ _ _ _ _ _ Et A) as (t' & St & ->). split; [|split; reflexivity].
    intros l ln E O. cbn [with_tracks nt_links nt_tracks] in *. destruct (K l ln E O) as (u & p & Eu & G).
    destruct (Nat.eq_dec (ln_src ln) i) as [Ei|Ni].
    + rewrite Ei in Eu |- *. assert (u = t) by congruence. subst u. destruct (cons_kept m t o t' x _ p St G (D l ln E O Ei)) as (p' & G').
      exists t', p'. split; [|exact G']. apply nth_error_set_eq. apply nth_error_Some. congruence.
    + exists u, p. split; [|exact G]. rewrite nth_error_set_ne by congruence. exact Eu.
  - unfold at_track in A. rewrite Et in A. injection A as <- <-. auto.
Qed.

Lemma link_cons s l ln ln' : ok_cons s -> nth_error (nt_links s) l = Some ln -> ln_src ln' = ln_src ln -> ln_cons ln' = ln_cons ln ->
  (ln_over ln' = None -> ln_over ln = None) -> ok_cons (with_links s (set_nth l ln' (nt_links s))).
Proof.
  intros K E E1 E2 O l' lx Ex Ox. cbn [with_links nt_links nt_tracks] in *. destruct (Nat.eq_dec l' l) as [->|N].
  - rewrite nth_error_set_eq in Ex by (apply nth_error_Some; congruence). injection Ex as <-. rewrite E1, E2. apply (K l ln E). auto.
  - rewrite nth_error_set_ne in Ex by congruence. exact (K l' lx Ex Ox).
Qed.
Lemma link_seen s l ln ln' : ok_seen s -> nth_error (nt_links s) l = Some ln -> ln_id ln' = ln_id ln -> Forall (seen_ok (ln_id ln)) (ln_streams ln') ->
  ok_seen (with_links s (set_nth l ln' (nt_links s))).
Proof.
  intros K E E1 F l' lx Ex. cbn [with_links nt_links] in *. destruct (Nat.eq_dec l' l) as [->|N].
  - rewrite nth_error_set_eq in Ex by (apply nth_error_Some; congruence). injection Ex as <-. rewrite E1. exact F.
  - rewrite nth_error_set_ne in Ex by congruence. exact (K l' lx Ex).
Qed.

Lemma seen_at f id k ss : (forall st, seen_ok id st -> seen_ok id (f st)) -> Forall (seen_ok id) ss -> Forall (seen_ok id) (at_stream f k ss).
Proof.
  intros Hf F. unfold at_stream. destruct (nth_error ss k) as [st|] eqn:E; [|exact F]. apply Forall_set; [exact F|].
  apply Hf. rewrite Forall_forall in F. apply F. eapply nth_error_In. exact E.
Qed.
Lemma seen_cancel id ks : forall ss, Forall (seen_ok id) ss -> Forall (seen_ok id) (cancel_all ks ss).
Proof. unfold cancel_all. induction ks as [|k ks IH]; intros ss F; [exact F|]. cbn. apply IH. apply seen_at; [|exact F]. intros st H. exact H. Qed.
Lemma turn_seen m ln o ss ln' x id : turn m ln o ss = (ln', x) -> Forall (seen_ok id) ss -> Forall (seen_ok id) (ln_streams ln').
Proof.
  unfold turn. destruct (sstep m (ln_prio ln) (ln_serve ln) o) as [t y]. destruct y; intros [= <- <-] F;
    cbn [with_serve ln_streams]; try exact F; apply seen_cancel; exact F.
Qed.

Definition uniq (s : net) : Prop := forall l l' ln ln', nth_error (nt_links s) l = Some ln -> nth_error (nt_links s) l' = Some ln' ->
    ln_src ln = ln_src ln' -> ln_cons ln = ln_cons ln' -> l = l'.

Lemma finish_ok m l ln ln' y did s s' x : ok_cons s -> ok_seen s -> uniq s -> nth_error (nt_links s) l = Some ln ->
  ln_src ln' = ln_src ln -> ln_cons ln' = ln_cons ln -> ln_id ln' = ln_id ln -> (ln_over ln' = None -> ln_over ln = None) ->
  Forall (seen_ok (ln_id ln)) (ln_streams ln') -> finish_turn m l ln' y did s = (s', x) -> ok_cons s' /\ ok_seen s'.
Proof.
  intros K1 K2 U E E1 E2 E3 O F T. pose proof (link_cons s l ln ln' K1 E E1 E2 O) as C. pose proof (link_seen s l ln ln' K2 E E3 F) as Z.
  unfold finish_turn in T. destruct (is_over ln') eqn:Ov; [|injection T as <- <-; auto].
  destruct (at_track m (ln_src ln') (TCDrop (ln_cons ln')) _) as [s2 z] eqn:A. injection T as <- <-.
  destruct (track_cons _ _ _ _ _ _ C A) as (C' & El & _).
  - intros l' lx Ex Ox Es [= Ec]. cbn [with_links nt_links] in Ex. destruct (Nat.eq_dec l' l) as [->|N].
    + rewrite nth_error_set_eq in Ex by (apply nth_error_Some; congruence). injection Ex as <-. unfold is_over in Ov. rewrite Ox in Ov. discriminate.
    + rewrite nth_error_set_ne in Ex by congruence. apply N. apply (U l' l lx ln Ex E); congruence.
  - split; [exact C'|]. intros l' lx Ex. rewrite El in Ex. exact (Z l' lx Ex).
Qed.

(** The beginning of a served stream is its header. *)
Lemma recv_header_in w canc hdr h r rest : header_ok hdr -> group_header_encode hdr = Val h -> content r = x00 :: wire h ++ rest ->
  exists t g, recv_stream w canc r = Arrived hdr t g.
Proof.
  intros Hh Eh C. unfold recv_stream.
  pose proof (reader_decode_flat data_type_decode r (good_kind w KData)) as D1.
  destruct (reader_decode data_type_decode r) as [a1 r1]. destruct D1 as (D1 & R1). rewrite C in D1. unfold flat_decode in D1.
  change (data_type_decode (x00 :: wire h ++ rest)) with (DOk DGroup (wire h ++ rest)) in D1. cbv iota in D1. injection D1 as -> Er.
  pose proof (reader_decode_flat group_header_decode r1 (good_kind w KGroup)) as D2.
  destruct (reader_decode group_header_decode r1) as [a2 r2]. destruct D2 as (D2 & R2). rewrite Er in D2. unfold flat_decode in D2.
  destruct (rt_kind w KGroup hdr Hh) as (h' & Eh' & Rt). cbn [encode_kind decode_kind] in Eh', Rt. rewrite Eh in Eh'. injection Eh' as <-.
  rewrite Rt in D2. injection D2 as -> _. destruct (settle w canc r2) as [t g]. eauto.
Qed.
Lemma prefix_cut {A} (a b c : list A) : prefix a (b ++ c) -> prefix a b \/ exists d, a = b ++ d.
Proof.
  revert b. induction a as [|x a IH]; intros b P; [left; exists b; reflexivity|].
  destruct b as [|y b]; [right; exists (x :: a); reflexivity|]. destruct P as (q & Q). injection Q as -> Q.
  destruct (IH b (ex_intro _ q Q)) as [(z & ->)|(z & ->)]; [left; exists z|right; exists z]; reflexivity.
Qed.

Lemma step_rest w m s o s' x H : (62 <= w)%N -> ninv w s H -> ok_cons s -> ok_seen s -> nstep m w s o = (s', x) -> ok_cons s' /\ ok_seen s'.
Proof.
  intros W K C Z St. pose proof (ni_uniq _ _ _ K) as U.
  assert (Tr : forall i o s' x, at_track m i o s = (s', x) ->
    (forall l ln, nth_error (nt_links s) l = Some ln -> ln_over ln = None -> ln_src ln = i -> o <> TCDrop (ln_cons ln)) ->
    ok_cons s' /\ ok_seen s' /\ uniq s' /\ nt_links s' = nt_links s).
  { intros i o0 s1 y A D. destruct (track_cons _ _ _ _ _ _ C A D) as (C1 & E1 & _). split; [exact C1|].
    split; [intros l ln E; rewrite E1 in E; exact (Z l ln E)|]. split; [|exact E1]. intros l l' ln ln' E E'. rewrite E1 in E, E'. exact (U l l' ln ln' E E'). }
  assert (Turn : forall s1 l ln o ss did, ok_cons s1 -> ok_seen s1 -> uniq s1 -> nth_error (nt_links s1) l = Some ln ->
     Forall (seen_ok (ln_id ln)) ss -> (let (ln, y) := turn m ln o ss in finish_turn m l ln y did s1) = (s', x) -> ok_cons s' /\ ok_seen s').
  { intros s1 l ln o0 ss did C1 Z1 U1 E F T. destruct (turn m ln o0 ss) as [ln' y] eqn:Et.
    destruct (turn_keeps _ _ _ _ _ _ Et) as (E1 & E2 & E3 & _ & _ & _ & O).
    exact (finish_ok m l ln ln' y did s1 s' x C1 Z1 U1 E E1 E2 E3 O (turn_seen _ _ _ _ _ _ _ Et F) T). }
  destruct o as [|j o|i o|i p id prio|l|l newer lost|l|l k live canc sched r|l clean|l]; cbn [nstep] in St.
  - injection St as <- <-. auto.
  - destruct (nth_error (nth 0 (nt_groups s) []) j); [destruct (fill w o r)|]; injection St as <- <-; auto.
  - destruct (Nat.ltb i (length (nt_tracks s)) && may_use s i o) eqn:B; [|injection St as <- <-; auto].
    destruct (at_track m i o s) as [s1 y] eqn:A. injection St as <- <-. apply andb_true_iff in B. destruct B as (_ & B).
    destruct (Tr _ _ _ _ A) as (C1 & Z1 & _); [|auto]. intros l ln E O Es ->. cbn [may_use] in B. apply negb_true_iff in B.
    exact (owned_false s i (ln_cons ln) l ln B E Es eq_refl).
  - destruct (Nat.eqb i 0 || Nat.eqb p 2); [|injection St as <- <-; auto].
    destruct (nth_error (nt_tracks s) i) as [t|] eqn:Et; [|injection St as <- <-; auto].
    destruct (tstep m t (TConsume p)) as [t' y] eqn:Stt. destruct y; [|injection St as <- <-; auto ..].
    destruct (tstep m tsys_new (TClone 0)) as [t1 x1]. destruct (tstep m t1 (TClone 0)) as [t2 x2]. injection St as <- <-. split.
    + intros l ln E O. cbn [nt_links nt_tracks] in *.
      destruct (Nat.lt_ge_cases l (length (nt_links s))) as [L|L].
      * rewrite nth_error_app1 in E by exact L. destruct (C l ln E O) as (u & q & Eu & G).
        destruct (Nat.eq_dec (ln_src ln) i) as [Ei|Ni].
        -- rewrite Ei in Eu |- *. assert (u = t) by congruence. subst u. destruct (cons_kept m t _ t' _ _ q Stt G ltac:(discriminate)) as (q' & G').
           exists t', q'. split; [|exact G']. apply nth_error_app_some. apply nth_error_set_eq. apply nth_error_Some. congruence.
        -- exists u, q. split; [|exact G]. apply nth_error_app_some. rewrite nth_error_set_ne by congruence. exact Eu.
      * rewrite nth_error_app2 in E by exact L. destruct (l - length (nt_links s)) as [|n]; [|destruct n; discriminate]. injection E as <-.
        cbn [ln_src ln_cons]. exists t', None. split; [apply nth_error_app_some; apply nth_error_set_eq; apply nth_error_Some; congruence|].
        cbn in Stt. destruct (idle t p); [|discriminate]. injection Stt as <-. cbn [twith_cons ts_cons]. unfold get. rewrite nth_error_app2, Nat.sub_diag by lia. reflexivity.
    + intros l ln E. cbn [nt_links] in E. destruct (Nat.lt_ge_cases l (length (nt_links s))) as [L|L].
      * rewrite nth_error_app1 in E by exact L. exact (Z l ln E).
      * rewrite nth_error_app2 in E by exact L. destruct (l - length (nt_links s)) as [|n]; [|destruct n; discriminate]. injection E as <-. constructor.
  - destruct (nth_error (nt_links s) l) as [ln|] eqn:E; [|injection St as <- <-; auto]. destruct (is_over ln); [injection St as <- <-; auto|].
    destruct (at_track m (ln_src ln) (TNext (ln_cons ln)) s) as [s1 y] eqn:A. destruct (Tr _ _ _ _ A ltac:(discriminate)) as (C1 & Z1 & U1 & El).
    assert (E1 : nth_error (nt_links s1) l = Some ln) by (rewrite El; exact E).
    destruct y as [| | | | |[[g|]|e| |]|]; try (injection St as <- <-; auto); eapply Turn; try eassumption; try exact (Z l ln E).
    apply Forall_app. split; [exact (Z l ln E)|]. constructor; [|constructor]. intros _ _ h _. cbn. exists (x00 :: wire h). reflexivity.
  - destruct (nth_error (nt_links s) l) as [ln|] eqn:E; [|injection St as <- <-; auto]. destruct (is_over ln); [injection St as <- <-; auto|].
    destruct (if newer then tv_new (ln_serve ln) else tv_old (ln_serve ln)) as [k|]; [|injection St as <- <-; auto].
    destruct (nth_error (ln_streams ln) k) as [st|]; [|injection St as <- <-; auto].
    assert (F : Forall (seen_ok (ln_id ln)) (if lost then at_stream lose k (ln_streams ln) else ln_streams ln)).
    { destruct lost; [|exact (Z l ln E)]. apply seen_at; [intros st0 H0; exact H0|exact (Z l ln E)]. }
    destruct lost, (nth_error (nth (ln_src ln) (nt_groups s) []) (st_src st)) as [[fs [o|]]|]; try (injection St as <- <-; auto); eapply Turn; try eassumption; exact U.
  - destruct (nth_error (nt_links s) l) as [ln|] eqn:E; [|injection St as <- <-; auto]. destruct (is_over ln); [injection St as <- <-; auto|].
    eapply Turn; try eassumption. exact (Z l ln E).
  - destruct (nth_error (nt_links s) l) as [ln|] eqn:E; [|injection St as <- <-; auto].
    destruct (nth_error (ln_streams ln) k) as [st|] eqn:Ek; [|injection St as <- <-; auto].
    destruct (nth_error (nth (ln_src ln) (nt_groups s) []) (st_src st)) as [g|] eqn:Eg; [|injection St as <- <-; auto].
    destruct (serve_group _ _ _) as [sv sd] eqn:Es.
    destruct (possible sv sd r && prefixb (st_seen st) (bytes_of r) && negb (st_over st)) eqn:B; [|injection St as <- <-; auto].
    apply andb_true_iff in B. destruct B as (B & _). apply andb_true_iff in B. destruct B as (B & _). apply possible_delivered in B.
    assert (Upd : forall s1 st', ok_cons s1 -> ok_seen s1 -> nt_links s1 = nt_links s -> seen_ok (ln_id ln) st' ->
       ok_cons (update l ln k st' s1) /\ ok_seen (update l ln k st' s1)).
    { intros s1 st' C1 Z1 El Q. unfold update. assert (E1 : nth_error (nt_links s1) l = Some ln) by (rewrite El; exact E).
      split; [apply (link_cons s1 l ln); auto|apply (link_seen s1 l ln); auto]. cbn [with_streams with_serve ln_streams].
      apply Forall_set; [exact (Z l ln E)|exact Q]. }
    assert (Fresh : forall st', st_at st' <> None -> seen_ok (ln_id ln) st') by (intros st' N E0; contradiction).
    destruct (recv_stream w canc r) as [a|h t g'] eqn:Er.
    + injection St as <- <-. apply Upd; auto. intros N O h Eh. cbn [st_at st_over st_seq st_seen] in *.
      destruct (header_encodes (GroupHeader (ln_id ln) (st_seq st))) as [Hh|Hp]; [|congruence].
      pose proof (co_sound _ _ _ (ni_cont _ _ _ K) _ _ (nth_error_In _ _ Eg)) as Sg.
      destruct (sound_view w live g Sg) as [HF SF].
      destruct (serve_group_emits _ (view_of live g) Hh (sizes_62 _ _ SF)) as (h' & Eh' & Em). rewrite Eh in Eh'. injection Eh' as <-.
      destruct (Em _ _ _ Es) as (q & Eq & Pq & _). cbn [sd_sent app] in Eq. destruct B as (Pr & _). rewrite Eq in Pr.
      pose proof (prefix_trans _ _ _ Pr Pq) as P. unfold top_wire in P. change (x00 :: wire h ++ wire_frames (wired (gv_frames (view_of live g)))) with ((x00 :: wire h) ++ wire_frames (wired (gv_frames (view_of live g)))) in P.
      destruct (prefix_cut _ _ _ P) as [P'|(d & P')]; [exact P'|]. exfalso.
      destruct (recv_header_in w canc _ h r d Hh Eh P') as (t & g' & R). congruence.
    + destruct (st_at st) as [[j|]|] eqn:Ea.
      * injection St as <- <-. apply Upd; auto. apply Fresh. discriminate.
      * injection St as <- <-. apply Upd; auto. apply Fresh. discriminate.
      * destruct (ln_phase ln).
        3: injection St as <- <-; apply Upd; auto; apply Fresh; discriminate.
        all: destruct (at_track m (S l) _ s) as [s1 y] eqn:A; destruct (Tr _ _ _ _ A ltac:(discriminate)) as (C1 & Z1 & _ & El);
          destruct y as [| | |[]| | |]; injection St as <- <-; apply Upd; auto; apply Fresh; discriminate.
  - destruct (nth_error (nt_links s) l) as [ln|] eqn:E; [|injection St as <- <-; auto].
    assert (Go : forall o s' x, (let (s, x) := at_track m (S l) o s in (with_links s (set_nth l (with_phase ln LEnded) (nt_links s)), NOut [(S l, (o, x))] NNone)) = (s', x) ->
       (forall c, o <> TCDrop c) -> ok_cons s' /\ ok_seen s').
    { intros o s2 x2 T No. destruct (at_track m (S l) o s) as [s1 y] eqn:A. injection T as <- <-. destruct (Tr _ _ _ _ A) as (C1 & Z1 & _ & El); [intros; apply No|].
      assert (E1 : nth_error (nt_links s1) l = Some ln) by (rewrite El; exact E).
      split; [apply (link_cons s1 l ln); auto|apply (link_seen s1 l ln); auto]. exact (Z l ln E). }
    destruct (ln_phase ln), clean, (ln_over ln) as [[]|]; try (injection St as <- <-; auto); eapply Go; try exact St; discriminate.
  - destruct (nth_error (nt_links s) l) as [ln|] eqn:E; [|injection St as <- <-; auto].
    destruct (ln_phase ln); try (injection St as <- <-; auto).
    destruct (at_track m (S l) (TDrop 1) s) as [s1 y] eqn:A. injection St as <- <-. destruct (Tr _ _ _ _ A ltac:(discriminate)) as (C1 & Z1 & _ & El).
    assert (E1 : nth_error (nt_links s1) l = Some ln) by (rewrite El; exact E).
    split; [apply (link_cons s1 l ln); auto|apply (link_seen s1 l ln); auto]. exact (Z l ln E).
Qed.

(** * A state in which nothing has failed *)

Definition waits (m : mode) (s : net) (ln : link) : Prop :=
  exists t, nth_error (nt_tracks s) (ln_src ln) = Some t /\ snd (tstep m t (TNext (ln_cons ln))) = TGot APending.
Definition quiet (st : stream) : Prop := st_lost st = false /\ (st_cancelled st = true \/ st_at st <> None).
Definition calm (m : mode) (s : net) (l : nat) : Prop := forall ln, nth_error (nt_links s) l = Some ln -> waits m s ln /\ Forall quiet (ln_streams ln).

Record fine (m : mode) (w : N) (s : net) (H : hists) : Prop := {
  fi_inv : ninv w s H; fi_cons : ok_cons s; fi_seen : ok_seen s; fi_root : root_open s;
  fi_small : Forall (small_number m) (accepted (H 0)); fi_ok : nothing_failed s }.

Lemma calm_rest m w s H : fine m w s H -> (forall l, calm m s l) -> at_rest m w s.
Proof.
  intros F C l ln E. destruct (fi_ok _ _ _ _ F l ln E) as (_ & O & P & _). destruct (C l ln E) as (Wt & Q).
  split; [exact O|]. split; [exact P|]. split; [|exact Q]. cbn [nstep]. rewrite E. unfold is_over. rewrite O. destruct Wt as (t & Et & Wt).
  unfold at_track. rewrite Et. destruct (tstep m t (TNext (ln_cons ln))) as [t' y]. cbn [snd] in Wt. subst y. reflexivity.
Qed.

Lemma is_open m w s H i : fine m w s H -> i < length (nt_tracks s) ->
  exists t, nth_error (nt_tracks s) i = Some t /\ ts_closed t = None /\ tsys_alive t = true.
Proof.
  intros F L. destruct i as [|l]; [exact (fi_root _ _ _ _ F)|].
  pose proof (fi_inv _ _ _ _ F) as K. destruct (nth_error (nt_tracks s) (S l)) as [t|] eqn:Et; [|apply nth_error_None in Et; lia].
  assert (Ll : l < length (nt_links s)) by (rewrite (tk_len _ _ (ni_tracks _ _ _ K)) in L; lia).
  destruct (nth_error (nt_links s) l) as [ln|] eqn:E; [|apply nth_error_None in E; lia].
  destruct (fi_ok _ _ _ _ F l ln E) as (_ & _ & P & _). exists t. split; [reflexivity|].
  pose proof (tk_inv _ _ (ni_tracks _ _ _ K) _ t Et) as Ti. split.
  - rewrite (ti_closed _ _ Ti). exact (lk_open _ _ _ (ni_links _ _ _ K l ln E) P).
  - assert (G : get (ts_prods t) 1 = Some Idle) by (apply (ni_prod _ _ _ K l ln t E Et); congruence).
    unfold tsys_alive. apply orb_true_iff. left. unfold live. apply existsb_exists. exists (Some Idle). split; [|reflexivity].
    apply get_Some in G. eapply nth_error_In. exact G.
Qed.

Lemma small_at m w s H i g : fine m w s H -> In g (accepted (H i)) -> small_number m g.
Proof.
  intros F I. pose proof (fi_small _ _ _ _ F) as Sm. rewrite Forall_forall in Sm. destruct i as [|i]; [exact (Sm g I)|].
  destruct (ni_cont _ _ _ (fi_inv _ _ _ _ F)) as [C1 C2 C3 C4].
  assert (L : g_id g < length (nth (S i) (nt_groups s) [])).
  { assert (In (g_id g) (seq 0 (length (nth (S i) (nt_groups s) [])))) by (rewrite <- C2 by lia; apply in_map; exact I). apply in_seq in H0. lia. }
  destruct (nth_error (nth (S i) (nt_groups s) []) (g_id g)) as [h|] eqn:E; [|apply nth_error_None in E; lia].
  destruct (C4 (S i) g h ltac:(lia) I E) as (g0 & _ & I0 & Q & _). specialize (Sm g0 I0). unfold small_number in *. rewrite <- Q. exact Sm.
Qed.

Lemma stream_group w s H l ln k st : ninv w s H -> nth_error (nt_links s) l = Some ln -> nth_error (ln_streams ln) k = Some st ->
  exists gr h, In gr (accepted (H (ln_src ln))) /\ g_seq gr = st_seq st /\ nth_error (nth (ln_src ln) (nt_groups s) []) (st_src st) = Some h.
Proof.
  intros K E Ek. pose proof (ni_links _ _ _ K l ln E) as Lk. destruct (links_tracks w s H l ln K E) as (Ls & _).
  assert (Ec : nth_error (map core (ln_streams ln)) k = Some (core st)) by (rewrite nth_error_map, Ek; reflexivity).
  destruct (Forall2_at _ _ _ k _ (so_map _ _ _ _ (lk_str _ _ _ Lk)) Ec) as (gr & Eg' & Es).
  cbn in Es. injection Es as E1 E2. destruct (given_ok w s H (ln_src ln) (ln_cons ln) K) as (_ & _ & Inc).
  pose proof (Inc gr (nth_error_In _ _ Eg')) as I. exists gr.
  assert (L : g_id gr < length (nth (ln_src ln) (nt_groups s) [])).
  { destruct (ni_cont _ _ _ K) as [C1 C2 C3 C4]. destruct (ln_src ln) as [|i].
    - rewrite Forall_forall in C1. exact (C1 gr I).
    - assert (J : In (g_id gr) (seq 0 (length (nth (S i) (nt_groups s) [])))) by (rewrite <- C2 by lia; apply in_map; exact I). apply in_seq in J. lia. }
  rewrite E2. destruct (nth_error (nth (ln_src ln) (nt_groups s) []) (g_id gr)) as [h|] eqn:Eh; [|apply nth_error_None in Eh; lia].
  exists h. auto.
Qed.

(** * Polling *)

Lemma next_open m t c p : get (ts_cons t) c = Some p -> ts_closed t = None -> tsys_alive t = true ->
  (snd (tstep m t (TNext c)) = TGot APending) \/
  exists g, ts_latest t = Some g /\ tstep m t (TNext c) = (twith_cons t (set_nth c (Some (Some (g_seq g))) (ts_cons t)), TGot (AOk (Some g))) /\
    snd (tstep m (twith_cons t (set_nth c (Some (Some (g_seq g))) (ts_cons t))) (TNext c)) = TGot APending.
Proof.
  intros G Cl Al. cbn [tstep]. rewrite G. unfold track_next. rewrite Cl, orb_false_r. destruct (opt_gt (option_map g_seq (ts_latest t)) p) eqn:O.
  - right. destruct (ts_latest t) as [g|] eqn:La; [|discriminate]. exists g. split; [reflexivity|]. split; [reflexivity|].
    cbn [twith_cons ts_cons ts_latest ts_closed]. erewrite get_set_eq by exact G. rewrite Cl, La. cbn [option_map opt_gt]. rewrite N.ltb_irrefl. cbn [orb].
    change (tsys_alive (twith_cons t (set_nth c (Some (Some (g_seq g))) (ts_cons t)))) with (tsys_alive t). rewrite Al. reflexivity.
  - left. rewrite Al. reflexivity.
Qed.
Lemma next_other m t c c' t' y : tstep m t (TNext c) = (t', y) -> c' <> c -> snd (tstep m t' (TNext c')) = snd (tstep m t (TNext c')).
Proof.
  cbn [tstep]. destruct (get (ts_cons t) c) as [p|]; [|intros [= <- <-]; reflexivity].
  destruct (track_next _ _ _ _) as [[a p']|]; intros [= <- <-] N; [|reflexivity]. cbn [twith_cons ts_cons ts_latest ts_closed].
  rewrite get_set_ne by congruence. change (tsys_alive (twith_cons t (set_nth c (Some p') (ts_cons t)))) with (tsys_alive t).
  destruct (get (ts_cons t) c') as [q|]; [|reflexivity]. destruct (track_next _ _ _ q) as [[]|]; reflexivity.
Qed.
Lemma next_open_kept m t c t' y : tstep m t (TNext c) = (t', y) -> ts_closed t' = ts_closed t /\ tsys_alive t' = tsys_alive t.
Proof.
  cbn [tstep]. destruct (get (ts_cons t) c) as [p|]; [|intros [= <- <-]; auto]. destruct (track_next _ _ _ _) as [[a p']|]; intros [= <- <-]; auto.
Qed.
Lemma priority_small m prio g : small_number m g -> exists p, stream_priority m prio (g_seq g) = Val p.
Proof.
  intros (_ & S). unfold stream_priority. destruct (N.leb_spec (g_seq g mod 2 ^ 32) 0xFFFFFF) as [L|L]; [eauto|].
  destruct m; [|eauto]. exfalso. specialize (S eq_refl). rewrite N.mod_small in L by lia. lia.
Qed.

Definition hopeful (st : stream) : Prop := st_lost st = false /\ (st_cancelled st = true \/ st_at st <> None \/ st_over st = false).
Lemma hopeful_cancel ks : forall ss, Forall hopeful ss -> Forall hopeful (cancel_all ks ss).
Proof.
  unfold cancel_all. induction ks as [|k ks IH]; intros ss F; [exact F|]. cbn. apply IH. unfold at_stream.
  destruct (nth_error ss k) as [st|] eqn:E; [|exact F]. apply Forall_set; [exact F|]. rewrite Forall_forall in F.
  destruct (F st (nth_error_In _ _ E)) as (A & _). split; [exact A|left; reflexivity].
Qed.

(** Nothing is added to the application's track. *)
Lemma delivery_root m w s o s' x H : delivery o -> nstep m w s o = (s', x) -> accepted (exts H (no_did x) 0) = accepted (H 0).
Proof.
  intros D St. rewrite exts_at. unfold accepted at 1. rewrite flat_map_app. fold (accepted (H 0)).
  assert (N : Forall (fun d => fst d = 0 -> accept_of (snd d) = []) (no_did x)).
  { assert (Fin : forall l ln y did s1, Forall (fun d : nat * (top * tout) => fst d = 0 -> accept_of (snd d) = []) did -> finish_turn m l ln y did s1 = (s', x) ->
      Forall (fun d : nat * (top * tout) => fst d = 0 -> accept_of (snd d) = []) (no_did x)).
    { intros l ln y did s1 Fd T. unfold finish_turn in T. destruct (is_over ln); [|injection T as <- <-; exact Fd].
      destruct (at_track m (ln_src ln) _ _) as [s2 z]. injection T as <- <-. cbn [no_did]. apply Forall_app. split; [exact Fd|].
      constructor; [intros _; exact (proj1 (quiet_cdrop _ _))|constructor]. }
    destruct o as [| | | |l| | |l k live canc sched r| |]; try contradiction; cbn [nstep] in St.
    - destruct (nth_error (nt_links s) l) as [ln|]; [|injection St as <- <-; constructor]. destruct (is_over ln); [injection St as <- <-; constructor|].
      destruct (at_track m (ln_src ln) _ s) as [s1 y].
      assert (Fd : Forall (fun d : nat * (top * tout) => fst d = 0 -> accept_of (snd d) = []) [(ln_src ln, (TNext (ln_cons ln), y))]) by (constructor; [intros _; reflexivity|constructor]).
      destruct y as [| | | | |[[g|]|e| |]|]; try (injection St as <- <-; exact Fd);
        destruct (turn _ _ _ _) as [ln' z]; exact (Fin _ _ _ _ _ Fd St).
    - destruct (nth_error (nt_links s) l) as [ln|]; [|injection St as <- <-; constructor].
      destruct (nth_error (ln_streams ln) k) as [st|]; [|injection St as <- <-; constructor].
      destruct (nth_error (nth (ln_src ln) (nt_groups s) []) (st_src st)) as [g|]; [|injection St as <- <-; constructor].
      destruct (serve_group _ _ _) as [sv sd]. destruct (possible sv sd r && _ && _); [|injection St as <- <-; constructor].
      destruct (recv_stream w canc r) as [a|h t g']; [injection St as <- <-; constructor|].
      destruct (st_at st) as [[j|]|]; [injection St as <- <-; constructor|injection St as <- <-; constructor|].
      destruct (ln_phase ln); [| |injection St as <- <-; constructor]; destruct (at_track m (S l) _ s) as [s1 y]; destruct y as [| | |[]| | |]; injection St as <- <-; cbn [no_did];
        (constructor; [discriminate|constructor]). }
  clear -N. induction N as [|d did Hd _ IH]; [apply app_nil_r|]. cbn [flat_map]. destruct (Nat.eqb_spec (fst d) 0) as [E|E].
  - cbn [app flat_map]. rewrite (Hd E). exact IH.
  - exact IH.
Qed.

Lemma modest_delivery o : delivery o -> modest o.
Proof. destruct o; cbn; tauto. Qed.

Lemma poll_once m w s H l ln : (62 <= w)%N -> fine m w s H -> nth_error (nt_links s) l = Some ln -> ~ waits m s ln ->
  exists s' x ln', nstep m w s (NPoll l) = (s', x) /\ fine m w s' (exts H (no_did x)) /\
    length (nt_links s') = length (nt_links s) /\ nth_error (nt_links s') l = Some ln' /\ waits m s' ln' /\
    (forall l', l' < l -> calm m s l' -> calm m s' l').
Proof.
  intros W F E NW. pose proof (fi_inv _ _ _ _ F) as K. destruct (fi_ok _ _ _ _ F l ln E) as (Id & O & P & Fs).
  destruct (links_tracks w s H l ln K E) as (Ls & _). destruct (is_open m w s H _ F Ls) as (t & Et & Cl & Al).
  destruct (fi_cons _ _ _ _ F l ln E O) as (t0 & p & Et0 & G). assert (t0 = t) by congruence. subst t0. clear Et0.
  destruct (next_open m t _ p G Cl Al) as [N|(g & La & Nx & Again)].
  { exfalso. apply NW. exists t. auto. }
  set (t' := twith_cons t (set_nth (ln_cons ln) (Some (Some (g_seq g))) (ts_cons t))) in *.
  assert (Sm : small_number m g).
  { apply (small_at m w s H (ln_src ln) g F). pose proof (tk_inv _ _ (ni_tracks _ _ _ K) _ t Et) as Ti.
    pose proof (next_inv m t _ _ t' _ Ti Nx ltac:(discriminate)) as Nv. cbv zeta in Nv. rewrite <- (ti_closed _ _ Ti), Cl in Nv.
    destruct Nv as [(g' & (I & _) & _ & [= <-])|(_ & Nv)]; [exact I|]. rewrite Al in Nv. discriminate. }
  destruct (priority_small m (ln_prio ln) g Sm) as (pr & Epr).
  pose proof (lk_fut _ _ _ (ni_links _ _ _ K l ln E) O) as Fu.
  assert (T : exists tv cs, turn m ln (SGroup (g_seq g)) (ln_streams ln ++ [strm_new g]) =
      (with_serve ln tv (cancel_all cs (ln_streams ln ++ [strm_new g])) (ln_over ln), SStarted (tv_count (ln_serve ln)) pr cs)).
  { unfold turn, sstep. rewrite (fo_over _ _ Fu), Epr. destruct (tv_new (ln_serve ln)); eauto. }
  destruct T as (tv & cs & T).
  set (ln' := with_serve ln tv (cancel_all cs (ln_streams ln ++ [strm_new g])) (ln_over ln)) in *.
  set (s1 := with_tracks s (set_nth (ln_src ln) t' (nt_tracks s))).
  assert (St : nstep m w s (NPoll l) = (with_links s1 (set_nth l ln' (nt_links s1)), NOut [(ln_src ln, (TNext (ln_cons ln), TGot (AOk (Some g))))] (NTurn (SStarted (tv_count (ln_serve ln)) pr cs)))).
  { cbn [nstep]. rewrite E. unfold is_over at 1. rewrite O. unfold at_track. rewrite Et, Nx. cbv iota beta. rewrite T. unfold finish_turn.
    assert (Ov : is_over ln' = false) by (unfold is_over, ln'; cbn; rewrite O; reflexivity). rewrite Ov. reflexivity. }
  do 3 eexists. split; [exact St|]. cbn [with_links nt_links nt_tracks s1 with_tracks].
  assert (Ll : l < length (nt_links s)) by (apply nth_error_Some; congruence).
  split; [|split; [apply set_nth_length|split; [apply nth_error_set_eq; exact Ll|split]]].
  - destruct (step_rest w m s (NPoll l) _ _ H W K (fi_cons _ _ _ _ F) (fi_seen _ _ _ _ F) St) as (C' & Z').
    constructor; [exact (ninv_step w m s (NPoll l) _ _ H W I K St)|exact C'|exact Z'| | |].
    + destruct (fi_root _ _ _ _ F) as (u & Eu & Cu & Au). unfold root_open. cbn [with_links nt_tracks s1 with_tracks].
      destruct (Nat.eq_dec (ln_src ln) 0) as [E0|N0].
      * rewrite E0 in *. assert (u = t) by congruence. subst u. exists t'. split; [apply nth_error_set_eq; exact Ls|]. split; [exact Cl|exact Al].
      * exists u. rewrite nth_error_set_ne by congruence. auto.
    + rewrite (delivery_root m w s (NPoll l) _ _ H I St). exact (fi_small _ _ _ _ F).
    + intros l' lx Ex. cbn [with_links nt_links s1 with_tracks] in Ex. destruct (Nat.eq_dec l' l) as [->|N].
      * rewrite nth_error_set_eq in Ex by exact Ll. injection Ex as <-. unfold ln'. cbn [with_serve ln_id ln_over ln_phase ln_streams].
        split; [exact Id|]. split; [exact O|]. split; [exact P|]. apply (hopeful_cancel cs). apply Forall_app. split; [exact Fs|].
        constructor; [|constructor]. split; [reflexivity|]. right. right. reflexivity.
      * rewrite nth_error_set_ne in Ex by congruence. exact (fi_ok _ _ _ _ F l' lx Ex).
  - exists t'. split; [|exact Again]. cbn [with_links nt_tracks s1 with_tracks ln' with_serve ln_src]. apply nth_error_set_eq. exact Ls.
  - intros l' Ll' Ca lx Ex. cbn [with_links nt_links s1 with_tracks] in Ex. rewrite nth_error_set_ne in Ex by lia.
    destruct (Ca lx Ex) as ((u & Eu & Wx) & Qx). split; [|exact Qx]. unfold waits. cbn [with_links nt_tracks s1 with_tracks].
    destruct (Nat.eq_dec (ln_src lx) (ln_src ln)) as [Es|Ns]; [|exists u; rewrite nth_error_set_ne by congruence; auto].
    rewrite Es in *. assert (u = t) by congruence. subst u. exists t'. split; [apply nth_error_set_eq; exact Ls|].
    assert (Nc : ln_cons lx <> ln_cons ln) by (intros Ec; pose proof (ni_uniq _ _ _ K l' l lx ln Ex E Es Ec); lia).
    rewrite (next_other m t _ _ t' _ Nx Nc). exact Wx.
Qed.

(** * Delivering a header *)

Lemma header_first hdr h v : group_header_encode hdr = Val h -> Forall (fun f => (fv_size f < 2 ^ 62)%N) (gv_frames v) ->
  exists sv s, serve_group hdr v (Send [] [Acc 1; Acc (length (wire h))]) = (sv, s) /\ prefix (x00 :: wire h) (sd_sent s).
Proof.
  intros Eh Sz. unfold serve_group, then_encode, writer_encode. rewrite stype, Eh. unfold then_write. change (wire [PInt 1 BE 0]) with [x00].
  assert (P0 : forall sch, push [x00] [] (Acc 1 :: sch) = (AOk tt, Send [x00] sch)) by (intros [|? ?]; reflexivity).
  assert (P : exists sch, push (wire h) [x00] [Acc (length (wire h))] = (AOk tt, Send (x00 :: wire h) sch)).
  { destruct (wire h) as [|b l] eqn:Ew; [eexists; reflexivity|]. cbn [push]. rewrite skipn_all, firstn_all. eexists. reflexivity. }
  destruct P as (sch & P). cbn [sd_sent sd_sched]. rewrite P0. cbn [fst snd of_await sd_sent sd_sched]. rewrite P. cbn [fst snd of_await].
  destruct (serve_frames (gv_frames v) (gv_end v) (Send (x00 :: wire h) sch)) as [sv s] eqn:Es. exists sv, s. split; [reflexivity|].
  destruct (emits_frames (gv_end v) (gv_frames v) Sz _ _ _ Es) as (q & Eq & _). exists q. exact Eq.
Qed.

Lemma arrive_once m w s H l ln k st : (62 <= w)%N -> fine m w s H -> nth_error (nt_links s) l = Some ln -> waits m s ln ->
  nth_error (ln_streams ln) k = Some st -> st_at st = None -> st_over st = false ->
  exists o s' x ln' st', delivery o /\ nstep m w s o = (s', x) /\ fine m w s' (exts H (no_did x)) /\
    length (nt_links s') = length (nt_links s) /\ nth_error (nt_links s') l = Some ln' /\ waits m s' ln' /\
    ln_streams ln' = set_nth k st' (ln_streams ln) /\ st_at st' <> None /\ st_lost st' = st_lost st /\
    (forall l', l' < l -> calm m s l' -> calm m s' l').
Proof.
  intros W F E Wt Ek Na No. pose proof (fi_inv _ _ _ _ F) as K. destruct (fi_ok _ _ _ _ F l ln E) as (Id & O & P & Fs).
  destruct (links_tracks w s H l ln K E) as (Ls & Ld). pose proof (lk_src _ _ _ (ni_links _ _ _ K l ln E)) as Le.
  destruct (stream_group w s H l ln k st K E Ek) as (gr & g & Ig & Eq & Eg).
  destruct (small_at m w s H _ gr F Ig) as (Sm & _). rewrite Eq in Sm.
  set (hdr := GroupHeader (ln_id ln) (st_seq st)).
  assert (Hh : header_ok hdr) by (split; assumption).
  destruct (rt_kind w KGroup hdr Hh) as (h & Eh & _). cbn [encode_kind] in Eh.
  pose proof (co_sound _ _ _ (ni_cont _ _ _ K) _ _ (nth_error_In _ _ Eg)) as Sg. destruct (sound_view w false g Sg) as [HF SF].
  destruct (header_first hdr h (view_of false g) Eh (sizes_62 _ _ SF)) as (sv & sd & Es & Ps).
  set (r := Reader (x00 :: wire h) (Recv [] Open)).
  assert (Br : bytes_of r = x00 :: wire h) by (unfold bytes_of, r; cbn; rewrite app_nil_r; reflexivity).
  set (o := NArrive l k false false [Acc 1; Acc (length (wire h))] r).
  destruct (recv_header_in w false hdr h r [] Hh Eh) as (t & g' & R); [unfold content; fold (bytes_of r); rewrite Br, app_nil_r; reflexivity|].
  assert (Ok : possible sv sd r && prefixb (st_seen st) (bytes_of r) && negb (st_over st) = true).
  { rewrite No, Br. unfold possible. rewrite Br. cbn [r rd_stream rc_chunks rc_end forallb negb].
    rewrite !andb_true_iff. repeat split. - apply prefixb_prefix. exact Ps.
    - apply prefixb_prefix. pose proof (fi_seen _ _ _ _ F l ln E) as Fse. rewrite Forall_forall in Fse.
      exact (Fse st (nth_error_In _ _ Ek) Na No h Eh). }
  destruct (is_open m w s H (S l) F Ld) as (td & Etd & Cld & Ald).
  assert (Gp : get (ts_prods td) 1 = Some Idle) by (apply (ni_prod _ _ _ K l ln td E Etd); congruence).
  set (gs := nth (S l) (nt_groups s) []). set (new := Group (st_seq st) (length gs)).
  assert (In1 : exists b la, tstep m td (TInsert 1 new) = (twith_latest td la, TInserted b)).
  { cbn [tstep]. unfold idle. rewrite Gp, Cld. unfold track_insert. destruct (ts_latest td) as [z|]; [destruct (N.ltb (g_seq z) (g_seq new))|]; eauto. }
  destruct In1 as (b & la & In1).
  assert (St : exists s1 x at_, nstep m w s o = (update l ln k (Strm (st_seq st) (st_src st) (st_cancelled st) (st_lost st) (bytes_of r) false (Some at_)) s1, x) /\
     nt_links s1 = nt_links s /\ nt_tracks s1 = set_nth (S l) (twith_latest td la) (nt_tracks s)).
  { unfold o. cbn [nstep]. rewrite E, Ek, Eg. fold hdr. rewrite Es, Ok, R, Na, P. cbn [gh_sequence hdr].
    fold gs. fold new. unfold at_track. rewrite Etd, In1. cbv iota beta. cbn [orb r rd_stream rc_end].
    destruct b; do 3 eexists; (split; [reflexivity|]); split; reflexivity. }
  destruct St as (s1 & x & at_ & St & El & Et1).
  set (st' := Strm (st_seq st) (st_src st) (st_cancelled st) (st_lost st) (bytes_of r) false (Some at_)) in *.
  set (ln' := with_streams ln (set_nth k st' (ln_streams ln))).
  assert (Ll : l < length (nt_links s)) by (apply nth_error_Some; congruence).
  assert (D : delivery o) by (split; reflexivity).
  assert (Lk' : nt_links (update l ln k st' s1) = set_nth l ln' (nt_links s)) by (unfold update; cbn [with_links nt_links]; rewrite El; reflexivity).
  assert (Tr' : nt_tracks (update l ln k st' s1) = set_nth (S l) (twith_latest td la) (nt_tracks s)) by (unfold update; cbn [with_links nt_tracks]; exact Et1).
  exists o, (update l ln k st' s1), x, ln', st'. split; [exact D|]. split; [exact St|].
  split; [|split; [rewrite Lk'; apply set_nth_length|split; [rewrite Lk'; apply nth_error_set_eq; exact Ll|split; [|split; [reflexivity|split; [discriminate|split; [reflexivity|]]]]]]].
  - destruct (step_rest w m s o _ _ H W K (fi_cons _ _ _ _ F) (fi_seen _ _ _ _ F) St) as (C' & Z').
    constructor; [exact (ninv_step w m s o _ _ H W (modest_delivery o D) K St)|exact C'|exact Z'| | |].
    + destruct (fi_root _ _ _ _ F) as (u & Eu & Cu & Au). exists u. rewrite Tr', nth_error_set_ne by discriminate. auto.
    + rewrite (delivery_root m w s o _ _ H D St). exact (fi_small _ _ _ _ F).
    + intros l' lx Ex. rewrite Lk' in Ex. destruct (Nat.eq_dec l' l) as [->|N].
      * rewrite nth_error_set_eq in Ex by exact Ll. injection Ex as <-. unfold ln'. cbn [with_streams with_serve ln_id ln_over ln_phase ln_streams].
        split; [exact Id|]. split; [exact O|]. split; [exact P|]. apply Forall_set; [exact Fs|].
        rewrite Forall_forall in Fs. destruct (Fs st (nth_error_In _ _ Ek)) as (Lo & _). split; [exact Lo|]. right. right. reflexivity.
      * rewrite nth_error_set_ne in Ex by congruence. exact (fi_ok _ _ _ _ F l' lx Ex).
  - destruct Wt as (u & Eu & Wt). exists u. rewrite Tr'. split; [|exact Wt]. cbn [ln' with_streams with_serve ln_src]. rewrite nth_error_set_ne by lia. exact Eu.
  - intros l' Ll' Ca lx Ex. rewrite Lk', nth_error_set_ne in Ex by lia. destruct (Ca lx Ex) as ((u & Eu & Wx) & Qx). split; [|exact Qx].
    exists u. split; [|exact Wx]. rewrite Tr', nth_error_set_ne; [exact Eu|]. pose proof (lk_src _ _ _ (ni_links _ _ _ K l' lx Ex)). lia.
Qed.

(** * Everything *)

Inductive leads (m : mode) (w : N) (s : net) (H : hists) : list nop -> net -> hists -> Prop :=
| leads_none : leads m w s H [] s H
| leads_more ops s1 H1 o s2 x : leads m w s H ops s1 H1 -> delivery o -> nstep m w s1 o = (s2, x) -> leads m w s H (ops ++ [o]) s2 (exts H1 (no_did x)).

Lemma nrun_snoc m w ops o : forall s, nrun m w s (ops ++ [o]) =
  let (s1, tr) := nrun m w s ops in let (s2, x) := nstep m w s1 o in (s2, tr ++ [(o, x)]).
Proof.
  induction ops as [|o' ops IH]; intros s; cbn [app nrun].
  - destruct (nstep m w s o) as [s2 x]. reflexivity.
  - destruct (nstep m w s o') as [s1 y]. rewrite IH. destruct (nrun m w s1 ops) as [s2 tr]. destruct (nstep m w s2 o) as [s3 z]. reflexivity.
Qed.
Lemma leads_run m w s H ops s' H' : leads m w s H ops s' H' -> Forall delivery ops /\ fst (nrun m w s ops) = s' /\
  H' = fold_left (fun H e => exts H (no_did (snd e))) (snd (nrun m w s ops)) H /\ accepted (H' 0) = accepted (H 0).
Proof.
  induction 1 as [|ops s1 H1 o s2 x L (F & E1 & E2 & E3) D St]; [repeat split; constructor|].
  rewrite nrun_snoc. destruct (nrun m w s ops) as [s1' tr]. cbn [fst snd] in *. subst s1'. rewrite St. cbn [fst snd].
  split; [apply Forall_app; auto|]. split; [reflexivity|]. split; [rewrite fold_left_app, <- E2; reflexivity|].
  rewrite (delivery_root m w s1 o s2 x H1 D St). exact E3.
Qed.

(** The streams of one link. *)
Lemma headers m w s0 H0 l : (62 <= w)%N -> forall n k ops s H ln, leads m w s0 H0 ops s H -> fine m w s H -> nth_error (nt_links s) l = Some ln -> waits m s ln ->
  k + n = length (ln_streams ln) -> Forall quiet (firstn k (ln_streams ln)) ->
  (forall l', l' < l -> calm m s l') ->
  exists ops' s' H', leads m w s0 H0 ops' s' H' /\ fine m w s' H' /\ length (nt_links s') = length (nt_links s) /\ (forall l', l' <= l -> calm m s' l').
Proof.
  intros W. induction n as [|n IH]; intros k ops s H ln Lds F E Wt Len Q Ca.
  - exists ops, s, H. split; [exact Lds|]. split; [exact F|]. split; [reflexivity|]. intros l' L'.
    destruct (Nat.eq_dec l' l) as [->|N]; [|apply Ca; lia]. intros lx Ex. assert (lx = ln) by congruence. subst lx. split; [exact Wt|].
    rewrite <- (firstn_all (ln_streams ln)). replace (length (ln_streams ln)) with k by lia. exact Q.
  - destruct (nth_error (ln_streams ln) k) as [st|] eqn:Ek; [|apply nth_error_None in Ek; lia].
    assert (Fi : forall (ss : list stream) x, nth_error ss k = Some x -> firstn (S k) ss = firstn k ss ++ [x]).
    { clear. induction k as [|k IH]; intros [|y ss] x E; cbn in E |- *; try discriminate; [injection E as ->; reflexivity|].
      f_equal. exact (IH ss x E). }
    destruct (fi_ok _ _ _ _ F l ln E) as (_ & _ & _ & Fs). rewrite Forall_forall in Fs. destruct (Fs st (nth_error_In _ _ Ek)) as (Lo & Or).
    assert (Dec : quiet st \/ (st_at st = None /\ st_over st = false)).
    { unfold quiet. destruct Or as [Or|[Or|Or]]; auto. destruct (st_at st); [left; split; [exact Lo|right; discriminate]|auto]. }
    destruct Dec as [Qs|(Na & No)].
    + apply (IH (S k) ops s H ln Lds F E Wt ltac:(lia)); [|exact Ca]. rewrite (Fi _ _ Ek). apply Forall_app. auto.
    + destruct (arrive_once m w s H l ln k st W F E Wt Ek Na No) as (o & s' & x & ln' & st' & D & St & F' & Ln & E' & Wt' & Es & Na' & Lo' & Ca').
      destruct (IH (S k) (ops ++ [o]) s' (exts H (no_did x)) ln' (leads_more _ _ _ _ _ _ _ _ _ _ Lds D St) F' E' Wt') as (ops' & s2 & H2 & A1 & A2 & A3 & A4).
      * rewrite Es, set_nth_length. lia.
      * assert (Ls : k < length (ln_streams ln)) by (apply nth_error_Some; congruence).
        rewrite Es, (Fi _ st') by (apply nth_error_set_eq; exact Ls). apply Forall_app. split.
        -- assert (Ft : firstn k (set_nth k st' (ln_streams ln)) = firstn k (ln_streams ln)).
           { clear. generalize (ln_streams ln). induction k as [|k IH]; intros [|y ss]; try reflexivity. cbn [set_nth firstn]. f_equal. apply IH. }
           rewrite Ft. exact Q.
        -- constructor; [|constructor]. split; [congruence|right; exact Na'].
      * intros l' L'. apply Ca'; [exact L'|]. apply Ca. exact L'.
      * exists ops', s2, H2. split; [exact A1|]. split; [exact A2|]. split; [congruence|exact A4].
Qed.

(** One link after the other. *)
Lemma links_rest m w s H : (62 <= w)%N -> fine m w s H -> forall n, n <= length (nt_links s) ->
  exists ops s' H', leads m w s H ops s' H' /\ fine m w s' H' /\ length (nt_links s') = length (nt_links s) /\ (forall l, l < n -> calm m s' l).
Proof.
  intros W F. induction n as [|n IH]; intros L.
  - exists [], s, H. split; [constructor|]. split; [exact F|]. split; [reflexivity|]. intros l Ll. lia.
  - destruct IH as (ops & s1 & H1 & Ld & F1 & Len & Ca); [lia|].
    destruct (nth_error (nt_links s1) n) as [ln|] eqn:E; [|apply nth_error_None in E; lia].
    assert (Dec : waits m s1 ln \/ ~ waits m s1 ln).
    { unfold waits. destruct (nth_error (nt_tracks s1) (ln_src ln)) as [t|]; [|right; intros (u & Eu & _); discriminate].
      destruct (snd (tstep m t (TNext (ln_cons ln)))) as [| | | | |[[]| | |]|] eqn:Es;
        try (right; intros (u & [= <-] & Q); congruence). left. exists t. auto. }
    destruct Dec as [Wt|Nw].
    + destruct (headers m w s H n W (length (ln_streams ln)) 0 ops s1 H1 ln Ld F1 E Wt eq_refl ltac:(constructor) Ca) as (ops2 & s2 & H2 & A1 & A2 & A3 & A4).
      exists ops2, s2, H2. split; [exact A1|]. split; [exact A2|]. split; [congruence|]. intros l Ll. apply A4. lia.
    + destruct (poll_once m w s1 H1 n ln W F1 E Nw) as (s2 & x & ln2 & St & F2 & Len2 & E2 & Wt2 & Ca2).
      destruct (headers m w s H n W (length (ln_streams ln2)) 0 (ops ++ [NPoll n]) s2 _ ln2 (leads_more m w s H ops s1 H1 (NPoll n) s2 x Ld I St) F2 E2 Wt2 eq_refl ltac:(constructor)) as (ops3 & s3 & H3 & A1 & A2 & A3 & A4).
      * intros l' L'. apply Ca2; [exact L'|]. apply Ca. exact L'.
      * exists ops3, s3, H3. split; [exact A1|]. split; [exact A2|]. split; [congruence|]. intros l Ll. apply A4. lia.
Qed.

Lemma rest_inv m w ops : (62 <= w)%N -> Forall modest ops ->
  ok_cons (fst (nrun m w net_new ops)) /\ ok_seen (fst (nrun m w net_new ops)).
Proof.
  intros W M. assert (G : forall s H, ninv w s H -> ok_cons s -> ok_seen s -> ok_cons (fst (nrun m w s ops)) /\ ok_seen (fst (nrun m w s ops))).
  { induction M as [|o ops Mo M IH]; intros s H K C Z; [auto|]. cbn [nrun]. destruct (nstep m w s o) as [s1 x] eqn:St.
    destruct (step_rest w m s o s1 x H W K C Z St) as (C1 & Z1). specialize (IH s1 _ (ninv_step w m s o s1 x H W Mo K St) C1 Z1).
    destruct (nrun m w s1 ops) as [s2 tr]. exact IH. }
  apply (G net_new (fun _ => [])); [apply ninv_new| |]; intros [|l] ln E; discriminate E.
Qed.

Lemma nrun_app m w a : forall s b, nrun m w s (a ++ b) =
  (fst (nrun m w (fst (nrun m w s a)) b), snd (nrun m w s a) ++ snd (nrun m w (fst (nrun m w s a)) b)).
Proof.
  induction a as [|o a IH]; intros s b; cbn [app nrun fst snd]; [apply surjective_pairing|].
  destruct (nstep m w s o) as [s1 x]. rewrite IH. destruct (nrun m w s1 a) as [s2 tr]. reflexivity.
Qed.

Lemma rest_possible m w ops : (62 <= w)%N -> Forall modest ops ->
  let s := fst (nrun m w net_new ops) in let tr := snd (nrun m w net_new ops) in
  root_open s -> Forall (small_number m) (taken 0 tr) -> nothing_failed s ->
  exists more, Forall delivery more /\ at_rest m w (fst (nrun m w net_new (ops ++ more))) /\
    taken 0 (snd (nrun m w net_new (ops ++ more))) = taken 0 tr.
Proof.
  intros W M s tr R Sm He. pose proof (ninv_run w m ops W M) as K. fold s tr in K. destruct (rest_inv m w ops W M) as (C & Z). fold s in C, Z.
  assert (F : fine m w s (hist tr)).
  { constructor; auto. rewrite hist_history. exact Sm. }
  destruct (links_rest m w s (hist tr) W F (length (nt_links s)) (le_n _)) as (more & s' & H' & Ld & F' & Len & Ca).
  destruct (leads_run _ _ _ _ _ _ _ Ld) as (D & E1 & E2 & E3). exists more. split; [exact D|].
  rewrite nrun_app. cbn [fst snd]. fold s tr. rewrite E1. split.
  - apply (calm_rest m w s' H' F'). intros l ln E. apply (Ca l); [|exact E]. rewrite <- Len. apply nth_error_Some. congruence.
  - unfold taken. rewrite <- !hist_history. rewrite <- E3, E2. unfold hist. rewrite fold_left_app. reflexivity.
Qed.

(** Somebody who only waits for the network gets everybody to the newest group. *)
Lemma can_converge m w ops q : (62 <= w)%N -> Forall modest ops ->
  let s := fst (nrun m w net_new ops) in let tr := snd (nrun m w net_new ops) in
  root_open s -> Forall (small_number m) (taken 0 tr) -> nothing_failed s -> newest_is (taken 0 tr) q ->
  exists more, Forall delivery more /\
    forall i, i < length (nt_tracks (fst (nrun m w net_new (ops ++ more)))) -> newest_is (taken i (snd (nrun m w net_new (ops ++ more)))) q.
Proof.
  intros W M s tr R Sm He Nq. destruct (rest_possible m w ops W M R Sm He) as (more & D & Re & Ta). exists more. split; [exact D|].
  intros i L. apply (converges m w (ops ++ more) q i W); auto.
  - apply Forall_app. split; [exact M|]. eapply Forall_impl; [|exact D]. exact modest_delivery.
  - rewrite Ta. exact Nq.
Qed.
