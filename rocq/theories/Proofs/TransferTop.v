(** Group transfer: the property-shaped statements. *)
From Coq Require Import NArith ZArith List Lia Bool.
From Coq Require Import Init.Byte Strings.Byte.
From Coq Require Import ZifyBool ZifyNat ZifyN.
From Verif.Model Require Import Base Coding Message ErrorCode Stream Frame Transfer.
From Verif.Spec Require Import CodingSpec MessageSpec StreamSpec TransferSpec.
From Verif.Proofs Require Import BaseP CodingP MessageP StreamP TransferP.
Import ListNotations.
Open Scope N_scope.

Definition pair_of (f : frame_view) : N * bytes := (fv_size f, concat (fv_chunks f)).

Lemma wired_firstn : forall fs, wired fs = map pair_of (firstn (length (wired fs)) fs).
Proof.
  induction fs as [|f fs IH]; [reflexivity|]. cbn [wired length firstn map].
  destruct (fv_end f) as [[]|e| |]; [rewrite <- IH; reflexivity| | |]; reflexivity.
Qed.
Lemma wired_le fs : (length (wired fs) <= length fs)%nat.
Proof. induction fs as [|f fs IH]; cbn; [lia|]. destruct (fv_end f); cbn; lia. Qed.

Lemma wired_shape w : forall fs, Forall honest_frame fs -> Forall (sizes_fit w) fs -> shape w (wired fs).
Proof.
  induction fs as [|f fs IH]; intros H S; [exact I|]. inversion H as [|? ? [H1 H2] H3]; inversion S as [|? ? [S1 S2] S3]; subst.
  cbn [wired shape fst snd]. unfold len. repeat split; auto.
  - destruct (fv_end f) as [[]|e| |] eqn:E; auto.
  - destruct (fv_end f); cbn; auto.
Qed.

Lemma wired_all : forall fs, Forall is_whole fs -> wired fs = map pair_of fs.
Proof. induction fs as [|f fs IH]; intros H; [reflexivity|]. inversion H; subst. cbn. rewrite H2, IH; auto. Qed.

Lemma map_done fs : map done (map pair_of fs) = map whole fs.
Proof. rewrite map_map. reflexivity. Qed.

Lemma full_written fs : Forall full (map pair_of fs) -> Forall all_written fs.
Proof. rewrite Forall_map. intros H. eapply Forall_impl; [|exact H]. intros f Hf. exact Hf. Qed.

Lemma firstn_wired n fs : exists m, firstn n (wired fs) = map pair_of (firstn m fs) /\
  (forall f, nth_error (wired fs) n = Some f -> m = n /\ exists v, nth_error fs n = Some v /\ f = pair_of v).
Proof.
  exists (Nat.min n (length (wired fs))). split.
  - rewrite wired_firstn at 1. rewrite firstn_map, firstn_firstn. reflexivity.
  - intros f Hf. assert (L : (n < length (wired fs))%nat) by (apply nth_error_Some; congruence).
    split; [lia|]. rewrite wired_firstn in Hf. rewrite nth_error_map in Hf.
    assert (N : nth_error (firstn (length (wired fs)) fs) n = nth_error fs n).
    { clear Hf. remember (length (wired fs)) as k. clear Heqk. revert k L. revert fs.
      induction n; intros fs k L; (destruct k; [lia|]); destruct fs; cbn; auto. apply IHn. lia. }
    rewrite N in Hf. destruct (nth_error fs n) as [v|]; [|discriminate]. cbn in Hf. injection Hf as <-. eauto.
Qed.

(** ** Receiving a prefix *)
Definition settled_as (canc : bool) (t : task) (closed : option outcome) : task * option outcome :=
  match t with
  | TFailed Cancel | TFailed WebTransport => (TFailed Cancel, Some (Failed Cancel))
  | TFailed e => (TFailed e, Some (Failed e))
  | TPending => if canc then (TFailed Cancel, Some (Failed Cancel)) else (TPending, closed)
  | TDone => (TDone, Some Finished)
  | t => (t, closed)
  end.

Lemma settle_eq w canc r t g r' : run_group w (S (available r)) [] r = (t, g, r') ->
  settle w canc r = (fst (settled_as canc t (rg_closed g)), RGroup (rg_frames g) (snd (settled_as canc t (rg_closed g)))).
Proof.
  intros H. unfold settle. rewrite H. destruct g as [fs c]. destruct t; try reflexivity.
  - destruct e; reflexivity.
  - destruct canc; reflexivity.
Qed.

Lemma available_content r : available r = length (content r).
Proof. unfold available, content. rewrite app_length. reflexivity. Qed.

Definition short_of (e : ending) : await unit :=
  match e with Fin => AErr (Decode Short) | Reset => AErr WebTransport | Open => APending end.

Lemma recv_prefix w canc hdr fs h p r :
  header_ok hdr -> group_header_encode hdr = Val h -> Forall honest_frame fs -> Forall (sizes_fit w) fs ->
  prefix p (top_wire (wire h) fs) -> content r = p -> no_empty_piece r ->
  recv_stream w canc r = NoGroup (short_of (ends r)) \/
  exists p' n t closed infl frs,
    p = x00 :: wire h ++ p' /\ prefix p' (wire_frames (wired fs)) /\
    recv_stream w canc r = Arrived hdr (fst (settled_as canc t closed)) (RGroup frs (snd (settled_as canc t closed))) /\
    Forall full (firstn n (wired fs)) /\ norm frs = map done (firstn n (wired fs)) ++ infl /\
    stop (wired fs) p' (ends r) n t closed infl.
Proof.
  intros Hh Eh HF SF P C NE. unfold top_wire in P. unfold recv_stream.
  pose proof (reader_decode_flat data_type_decode r (good_kind w KData)) as D1.
  destruct (reader_decode data_type_decode r) as [a1 r1]. destruct D1 as (D1 & R1). rewrite C in D1.
  destruct p as [|b p].
  { left. unfold flat_decode in D1. cbn in D1. destruct (ends r); injection D1 as -> _; reflexivity. }
  assert (b = x00) as -> by (destruct P as [q E]; cbn in E; injection E; congruence).
  assert (P' : prefix p (wire h ++ wire_frames (wired fs))).
  { destruct P as [q E]. exists q. cbn in E. congruence. }
  unfold flat_decode in D1. cbn in D1. injection D1 as -> C1.
  pose proof (reader_decode_flat group_header_decode r1 (good_kind w KGroup)) as D2.
  destruct (reader_decode group_header_decode r1) as [a2 r2]. destruct D2 as (D2 & R2). rewrite C1 in D2.
  rewrite (proj1 R1) in D2.
  destruct (prefix_app_cases _ _ _ P') as [SP|(p' & -> & P2)].
  { left. unfold flat_decode in D2.
    change (group_header_decode p) with (decode_kind w KGroup p) in D2.
    rewrite (rt_good_short (wf w KGroup) (encode_kind KGroup) (decode_kind w KGroup) (good_kind w KGroup) (rt_kind w KGroup) hdr h p Hh Eh SP) in D2.
    destruct (ends r); injection D2 as -> _; reflexivity. }
  right. unfold flat_decode in D2.
  destruct (rt_kind w KGroup hdr Hh) as (h' & Eh' & Dh). assert (h' = h) as -> by (cbn in Eh'; congruence).
  change (group_header_decode (wire h ++ p')) with (decode_kind w KGroup (wire h ++ p')) in D2.
  rewrite Dh in D2. injection D2 as -> C2.
  assert (NE2 : no_empty_piece r2) by (eapply ok_rest_ne; [exact R2|]; eapply ok_rest_ne; eauto).
  destruct (run_group_prefix w (wired fs) (wired_shape w fs HF SF) p' P2 (S (available r2)) [] r2 NE2 C2)
    as (n & t & closed & infl & frs & r' & G1 & G2 & G3 & G4).
  { rewrite available_content, C2. lia. }
  exists p', n, t, closed, infl, frs. split; [reflexivity|]. split; [exact P2|]. split.
  - rewrite (settle_eq _ _ _ _ _ _ G1). cbn [rg_frames rg_closed app]. reflexivity.
  - split; [exact G2|]. split; [exact G3|]. rewrite (proj1 R2), (proj1 R1) in G4. exact G4.
Qed.

Lemma wire_frames_app a b : wire_frames (a ++ b) = wire_frames a ++ wire_frames b.
Proof. induction a as [|x a IH]; [reflexivity|]. cbn. rewrite IH, !app_assoc. reflexivity. Qed.

(** Everything delivered and cleanly ended. *)
Lemma stop_total w l e n t closed infl : shape w l -> Forall full l -> Forall full (firstn n l) ->
  stop l (wire_frames l) e n t closed infl ->
  firstn n l = l /\ infl = [] /\ t = ending_task e TDone /\ closed = match e with Fin => Some Finished | _ => None end.
Proof.
  intros S FA F H.
  assert (Sp : l = firstn n l ++ skipn n l) by (symmetry; apply firstn_skipn).
  assert (Hs : forall f l', skipn n l = f :: l' -> fst f < 2 ^ 62).
  { intros f l' E. rewrite E in Sp. clear - S Sp. rewrite Sp in S. clear Sp. induction (firstn n l) as [|x a IH].
    - cbn [app shape] in S. tauto.
    - cbn [app shape] in S. tauto. }
  assert (Hn : forall f, nth_error l n = Some f -> exists l', skipn n l = f :: l').
  { clear. revert n. induction l as [|x l IH]; intros [|n] f H; try discriminate.
    - cbn in *. injection H as ->. eauto.
    - cbn in *. auto. }
  destruct H as [Hp|f h N1 N2 N3 Hp|f part N1 N2 N3 Hp].
  - split; [|auto]. rewrite Sp in Hp at 1. rewrite wire_frames_app in Hp.
    rewrite <- (app_nil_r (wire_frames (firstn n l))) in Hp at 2. apply app_inv_head in Hp.
    destruct (skipn n l) as [|f l'] eqn:E; [rewrite app_nil_r in Sp; symmetry; exact Sp|].
    exfalso. cbn in Hp. apply app_eq_nil in Hp. destruct Hp as [Hp _]. exact (hdr_nonempty _ (Hs _ _ eq_refl) Hp).
  - exfalso. destruct (Hn _ N1) as [l' E]. rewrite Sp in Hp at 1. rewrite wire_frames_app in Hp. apply app_inv_head in Hp.
    rewrite E in Hp. cbn in Hp. destruct N3 as (x & Hx & Ex). rewrite Ex in Hp.
    rewrite <- (app_nil_r h) in Hp at 2. rewrite <- app_assoc in Hp. apply app_inv_head in Hp.
    apply app_eq_nil in Hp. tauto.
  - exfalso. destruct (Hn _ N1) as [l' E]. rewrite Sp in Hp at 1. rewrite wire_frames_app in Hp. apply app_inv_head in Hp.
    rewrite E in Hp. cbn in Hp. apply app_inv_head in Hp.
    assert (Ff : full f). { rewrite Sp, E in FA. apply Forall_app in FA. destruct FA as [_ FA]. inversion FA; assumption. }
    unfold full, len in *. apply (f_equal (@length _)) in Hp. rewrite app_length in Hp. lia.
Qed.

Lemma honest_full fs : Forall honest_frame fs -> Forall is_whole fs -> Forall full (map pair_of fs).
Proof.
  intros H W. rewrite Forall_map. rewrite Forall_forall in *. intros f Hf. destruct (H f Hf) as [_ E].
  exact (E (W f Hf)).
Qed.

Lemma sizes_62 w fs : Forall (sizes_fit w) fs -> Forall (fun f => fv_size f < 2 ^ 62) fs.
Proof. intros H. eapply Forall_impl; [|exact H]. intros f [S _]. exact S. Qed.

(** C15 *)
Lemma group_intact w canc hdr v sched s r :
  header_ok hdr -> Forall honest_frame (gv_frames v) -> Forall (sizes_fit w) (gv_frames v) ->
  serve_group hdr v (Send [] sched) = (SFinished, s) ->
  content r = sd_sent s -> ends r = Fin -> no_empty_piece r ->
  exists g, recv_stream w canc r = Arrived hdr TDone g /\ rg_closed g = Some Finished /\
    frames_of g = map whole (gv_frames v).
Proof.
  intros Hh HF SF S C E NE.
  destruct (serve_group_emits hdr v Hh (sizes_62 _ _ SF)) as (h & Eh & Em).
  destruct (Em _ _ _ S) as (p & Ep & _ & Fp). destruct (Fp eq_refl) as (-> & W & _). cbn [sd_sent app] in Ep.
  rewrite Ep in C.
  pose proof (recv_prefix w canc hdr (gv_frames v) h _ r Hh Eh HF SF (prefix_refl _) C NE) as R.
  destruct R as [R|(p' & n & t & closed & infl & frs & E1 & E2 & E3 & E4 & E5 & E6)].
  - exfalso. unfold recv_stream in R.
    pose proof (reader_decode_flat data_type_decode r (good_kind w KData)) as D1.
    destruct (reader_decode data_type_decode r) as [a1 r1]. destruct D1 as (D1 & R1). rewrite C in D1.
    unfold flat_decode in D1. unfold top_wire in D1. cbn in D1. injection D1 as -> C1.
    pose proof (reader_decode_flat group_header_decode r1 (good_kind w KGroup)) as D2.
    destruct (reader_decode group_header_decode r1) as [a2 r2]. destruct D2 as (D2 & R2). rewrite C1 in D2.
    unfold flat_decode in D2. destruct (rt_kind w KGroup hdr Hh) as (h' & Eh' & Dh).
    assert (h' = h) as -> by (cbn in Eh'; congruence).
    change (group_header_decode (wire h ++ wire_frames (wired (gv_frames v))))
      with (decode_kind w KGroup (wire h ++ wire_frames (wired (gv_frames v)))) in D2.
    rewrite Dh in D2. injection D2 as -> _. destruct (settle w canc r2). discriminate.
  - unfold top_wire in E1. injection E1 as E1. apply app_inv_head in E1. subst p'.
    rewrite wired_all in * by exact W. rewrite E in E6.
    destruct (stop_total w (map pair_of (gv_frames v)) _ _ _ _ _ ltac:(rewrite <- wired_all by exact W; apply wired_shape; assumption)
                (honest_full _ HF W) E4 E6) as (H1 & -> & -> & ->).
    rewrite H1, app_nil_r, map_done in E5. cbn in E3.
    exists (RGroup frs (Some Finished)). split; [exact E3|]. split; [reflexivity|]. exact E5.
Qed.

(** C16 *)
Lemma stop_arrived fs e n t closed infl p : Forall full (firstn n (wired fs)) ->
  stop (wired fs) p e n t closed infl ->
  arrived_from fs (map done (firstn n (wired fs)) ++ infl).
Proof.
  intros F S. destruct (firstn_wired n fs) as (m & Em & Hm). rewrite Em in *. rewrite map_done.
  pose proof (full_written _ F) as AW.
  destruct S as [Hp|f h N1 N2 N3 Hp|f part N1 N2 N3 Hp].
  - exists m. split; [exact AW|]. left. apply app_nil_r.
  - exists m. split; [exact AW|]. left. apply app_nil_r.
  - destruct (Hm _ N1) as (-> & v & Hv & ->). exists n. split; [exact AW|]. right.
    exists v, part. eexists. split; [exact Hv|]. split; [reflexivity|]. split; [exact N2|]. split; [exact N3|].
    destruct e; discriminate.
Qed.

Lemma wire_pslice cs : wire (map PSlice cs) = concat cs.
Proof. unfold wire. rewrite map_map. cbn. rewrite map_id. reflexivity. Qed.

Lemma boundary_seq fs : Forall (fun f => fv_size f < 2 ^ 62) fs ->
  encodes_seq (fun f => match frame_header_encode (fv_size f) with
                        | Val ps => Val (ps ++ map PSlice (fv_chunks f))
                        | Panic => Panic
                        end) fs (wire_frames (map pair_of fs)).
Proof.
  induction fs as [|f fs IH]; intros H; [reflexivity|]. inversion H; subst. cbn [encodes_seq map wire_frames].
  destruct (hdr_encode _ H2) as (ps & E & Eh). rewrite E.
  exists (ps ++ map PSlice (fv_chunks f)), (wire_frames (map pair_of fs)). split; [reflexivity|]. split; [auto|].
  rewrite wire_app, wire_pslice. cbn [pair_of fst snd]. rewrite Eh, app_assoc. reflexivity.
Qed.

Lemma group_cut w canc hdr v sched sv s r :
  header_ok hdr -> Forall honest_frame (gv_frames v) -> Forall (sizes_fit w) (gv_frames v) ->
  serve_group hdr v (Send [] sched) = (sv, s) ->
  prefix (content r) (sd_sent s) -> no_empty_piece r ->
  match recv_stream w canc r with
  | NoGroup a => a = match ends r with Fin => AErr (Decode Short) | Reset => AErr WebTransport | Open => APending end
  | Arrived h t g =>
      h = hdr /\ arrived_from (gv_frames v) (frames_of g) /\
      (rg_closed g = Some Finished <-> t = TDone) /\
      (t = TDone -> ends r = Fin /\ on_boundary hdr (gv_frames v) (content r) /\
                    Forall (fun f => snd f = Some Finished) (frames_of g)) /\
      (t <> TDone -> rg_closed g <> None \/ (ends r = Open /\ canc = false)) /\
      t <> TPanic /\ t <> TFuel
  end.
Proof.
  intros Hh HF SF S P NE.
  destruct (serve_group_emits hdr v Hh (sizes_62 _ _ SF)) as (h & Eh & Em).
  destruct (Em _ _ _ S) as (p & Ep & Pp & Fp). cbn [sd_sent app] in Ep. rewrite Ep in P.
  pose proof (recv_prefix w canc hdr (gv_frames v) h _ r Hh Eh HF SF (prefix_trans _ _ _ P Pp) eq_refl NE) as R.
  destruct R as [->|(p' & n & t & closed & infl & frs & E1 & E2 & -> & E4 & E5 & E6)]; [reflexivity|].
  split; [reflexivity|].
  pose proof (stop_arrived _ _ _ _ _ _ _ E4 E6) as AF.
  assert (Fr : frames_of (RGroup frs (snd (settled_as canc t closed))) = map done (firstn n (wired (gv_frames v))) ++ infl)
    by exact E5.
  rewrite Fr. split; [exact AF|]. cbn [rg_closed].
  destruct E6 as [Hp|f hh N1 N2 N3 Hp|f part N1 N2 N3 Hp].
  - destruct (ends r) eqn:Ee; cbn.
    + split; [tauto|]. split; [|split; [congruence|split; discriminate]]. intros _. split; [reflexivity|]. split.
      * destruct (firstn_wired n (gv_frames v)) as (m & Em' & _). rewrite Em' in *.
        exists m, [PInt 1 BE 0], h, (wire_frames (map pair_of (firstn m (gv_frames v)))).
        split; [reflexivity|]. split; [exact Eh|]. split; [apply full_written; exact E4|].
        split.
        -- apply boundary_seq. apply sizes_62 in SF. rewrite <- (firstn_skipn m (gv_frames v)) in SF.
           apply Forall_app in SF. tauto.
        -- rewrite E1, Hp. reflexivity.
      * rewrite app_nil_r. rewrite Forall_map. apply Forall_forall. reflexivity.
    + split; [split; discriminate|]. split; [discriminate|]. split; [left; discriminate|split; discriminate].
    + destruct canc; cbn.
      * split; [split; discriminate|]. split; [discriminate|]. split; [left; discriminate|split; discriminate].
      * split; [split; discriminate|]. split; [discriminate|]. split; [auto|split; discriminate].
  - destruct (ends r) eqn:Ee; cbn.
    + split; [split; discriminate|]. split; [discriminate|]. split; [left; discriminate|split; discriminate].
    + split; [split; discriminate|]. split; [discriminate|]. split; [left; discriminate|split; discriminate].
    + destruct canc; cbn.
      * split; [split; discriminate|]. split; [discriminate|]. split; [left; discriminate|split; discriminate].
      * split; [split; discriminate|]. split; [discriminate|]. split; [auto|split; discriminate].
  - destruct (ends r) eqn:Ee; cbn.
    + split; [split; discriminate|]. split; [discriminate|]. split; [left; discriminate|split; discriminate].
    + split; [split; discriminate|]. split; [discriminate|]. split; [left; discriminate|split; discriminate].
    + destruct canc; cbn.
      * split; [split; discriminate|]. split; [discriminate|]. split; [left; discriminate|split; discriminate].
      * split; [split; discriminate|]. split; [discriminate|]. split; [auto|split; discriminate].
Qed.

(** With a truthful transport a finished copy is a full copy. *)
Lemma group_finished_full w canc hdr v sched sv s r t g :
  header_ok hdr -> Forall honest_frame (gv_frames v) -> Forall (sizes_fit w) (gv_frames v) ->
  serve_group hdr v (Send [] sched) = (sv, s) -> delivered sv s r ->
  recv_stream w canc r = Arrived hdr t g -> rg_closed g = Some Finished ->
  finished_view v /\ frames_of g = map whole (gv_frames v).
Proof.
  intros Hh HF SF S (P & NE & Tr) R Cl.
  pose proof (group_cut w canc hdr v sched sv s r Hh HF SF S P NE) as G. rewrite R in G.
  destruct G as (_ & _ & G1 & G2 & _). pose proof (proj1 G1 Cl) as Ht. destruct (G2 Ht) as (Ee & _).
  destruct (Tr Ee) as (-> & C).
  destruct (serve_group_emits hdr v Hh (sizes_62 _ _ SF)) as (h & Eh & Em).
  destruct (Em _ _ _ S) as (p & Ep & _ & Fp). destruct (Fp eq_refl) as (_ & FV). split; [exact FV|].
  destruct (group_intact w canc hdr v sched s r Hh HF SF S C Ee NE) as (g' & R' & _ & Fr).
  rewrite R in R'. injection R' as _ ->. exact Fr.
Qed.

(** Serving a finished group completes whenever every write makes progress. *)
Lemma then_write_live buf s k : lively (sd_sched s) -> (length buf <= length (sd_sched s))%nat ->
  exists s1, then_write (push buf (sd_sent s) (sd_sched s)) k = k s1 /\ lively (sd_sched s1) /\
    (length (sd_sched s) <= length (sd_sched s1) + length buf)%nat.
Proof.
  intros L B. pose proof (push_spec (sd_sched s) buf (sd_sent s)) as P.
  destruct (push buf (sd_sent s) (sd_sched s)) as [x s1]. destruct P as (p & q & _ & _ & _ & _ & D).
  destruct (D L B) as (-> & L1 & B1). exists s1. auto.
Qed.

Definition needs (k : send -> served * send) (n : nat) : Prop :=
  forall s, lively (sd_sched s) -> (n <= length (sd_sched s))%nat -> exists s', k s = (SFinished, s').

Lemma needs_push buf k n : needs k n ->
  needs (fun s => then_write (push buf (sd_sent s) (sd_sched s)) k) (length buf + n).
Proof.
  intros K s L B. destruct (then_write_live buf s k L ltac:(lia)) as (s1 & -> & L1 & B1). apply K; [exact L1|lia].
Qed.

Lemma needs_chunks k n : needs k n -> forall cs, needs (serve_chunks cs (AOk tt) k) (length (concat cs) + n).
Proof.
  intros K. induction cs as [|c cs IH]; cbn [serve_chunks concat].
  - exact K.
  - rewrite app_length, <- Nat.add_assoc. exact (needs_push c _ _ IH).
Qed.

Lemma needs_encode {A} (enc : encoder A) m ps k n : enc m = Val ps -> needs k n ->
  needs (fun s => then_encode enc m s k) (length (wire ps) + n).
Proof.
  intros E K s L B. unfold then_encode, writer_encode. rewrite E. exact (needs_push (wire ps) k n K s L B).
Qed.

Lemma needs_frames fs : Forall is_whole fs -> Forall (fun f => fv_size f < 2 ^ 62) fs ->
  needs (serve_frames fs (AOk tt)) (length (wire_frames (map pair_of fs))).
Proof.
  induction fs as [|f fs IH]; intros W S.
  - intros s L B. cbn. eauto.
  - inversion W; inversion S; subst. destruct (hdr_encode _ H5) as (ps & E & Eh).
    cbn [serve_frames map wire_frames pair_of fst snd]. rewrite H1. rewrite <- Eh, !app_length.
    exact (needs_encode _ _ _ _ _ E (needs_chunks _ _ (IH H2 H6) (fv_chunks f))).
Qed.

Lemma serve_completes hdr v : header_ok hdr -> finished_view v -> Forall (fun f => fv_size f < 2 ^ 62) (gv_frames v) ->
  exists total, forall sched, lively sched -> (total <= length sched)%nat ->
    exists s, serve_group hdr v (Send [] sched) = (SFinished, s).
Proof.
  intros Hh [W E] S. destruct (rt_kind 64 KGroup hdr Hh) as (h & Eh & _).
  pose proof (needs_frames _ W S) as N.
  pose proof (needs_encode group_header_encode hdr h _ _ Eh N) as N2.
  pose proof (needs_encode data_type_encode DGroup _ _ _ stype N2) as N3.
  eexists. intros sched L B. unfold serve_group. rewrite E. exact (N3 (Send [] sched) L B).
Qed.

(** ** Hostile streams *)
Lemma run_group_hostile w : 62 <= w -> forall fuel fs r, no_empty_piece r -> (length (content r) < fuel)%nat ->
  sound_group w (RGroup fs None) ->
  match run_group w fuel fs r with
  | (t, g, _) => t <> TPanic /\ t <> TFuel /\ sound_group w g /\ (t = TPending -> ends r = Open) /\
                 (rg_closed g = Some Finished <-> t = TDone) /\ rg_closed g <> Some (Failed Cancel) /\
                 (t = TDone -> ends r = Fin)
  end.
Proof.
  intros Hw. induction fuel as [|fuel IH]; intros fs r NE F SG; [lia|]. cbn [run_group].
  pose proof (reader_maybe_flat frame_header_decode r good_u64 NE) as M.
  destruct (reader_decode_maybe frame_header_decode r) as [x r1]. destruct M as (M & R1).
  assert (NE1 : no_empty_piece r1) by (eapply ok_rest_ne; eauto).
  unfold flat_maybe in M. destruct (content r) as [|b bs] eqn:C.
  { destruct (ends r) eqn:Ee; cbn in M; injection M as -> _; cbn [rg_closed];
    repeat split; try discriminate; try congruence; auto. }
  unfold flat_decode in M. destruct (frame_header_decode (b :: bs)) as [size rest|e|] eqn:D.
  - injection M as -> M.
    assert (S62 : size < 2 ^ 62) by (apply (varint_decode_sound (b :: bs)) in D; destruct D as (p & _ & Hp); exact (is_varint_lt _ _ Hp)).
    assert (Sw : size < 2 ^ w) by (eapply N.lt_le_trans; [exact S62|apply N.pow_le_mono_r; lia]).
    pose proof (eats_u64 (b :: bs) size rest D) as Eat.
    pose proof (run_frame_flat w size Sw (frame_fuel r1) size 0 frame_new r1 (frame_fuel_ok r1) ltac:(lia) eq_refl) as G.
    destruct (run_frame w (frame_fuel r1) size size 0 frame_new r1) as [[t st] r2].
    destruct G as (G1 & G2 & G3). cbn [frame_new fs_chunks concat app] in G2.
    unfold frame_got in G1. rewrite (proj1 R1), M in G1. rewrite M in G2.
    assert (Ln : N.of_nat (length (concat (fs_chunks st))) <= size).
    { rewrite G2. change (len (take size rest) <= size). rewrite len_take. lia. }
    destruct (size <=? len rest) eqn:L.
    + injection G1 as -> G1c G1r.
      assert (SG' : sound_group w (RGroup (fs ++ [(size, st)]) None)).
      { unfold sound_group in *. cbn [rg_frames] in *. apply Forall_app. split; [exact SG|]. constructor; [|constructor].
        cbn [fst snd]. repeat split; auto. intros _. rewrite G2. change (len (take size rest) = size). rewrite len_take. lia. }
      assert (Lr : (length (content r2) < fuel)%nat).
      { rewrite G1r. pose proof (len_drop size rest). unfold len in *. lia. }
      specialize (IH (fs ++ [(size, st)]) r2 (ok_rest_ne _ _ G3 NE1) Lr SG').
      destruct (run_group w fuel (fs ++ [(size, st)]) r2) as [[t g] r3].
      rewrite (proj1 G3), (proj1 R1) in IH. exact IH.
    + assert (SGp : forall st', fs_chunks st' = fs_chunks st -> fs_closed st' <> Some Finished ->
                sound_group w (RGroup (fs ++ [(size, st')]) None)).
      { intros st' E1 E2. unfold sound_group in *. cbn [rg_frames] in *. apply Forall_app. split; [exact SG|]. constructor; [|constructor].
        cbn [fst snd]. rewrite E1. repeat split; auto. intros Hc. congruence. }
      destruct (ends r) eqn:Ee; injection G1 as -> G1c G1r; cbn [rg_closed];
        (split; [discriminate|]; split; [discriminate|]; split; [apply SGp; cbn; try reflexivity; rewrite ?G1c; discriminate|]);
        repeat split; try discriminate; auto.
  - destruct (ends r) eqn:Ee; destruct e; injection M as -> _; cbn [rg_closed]; repeat split; try discriminate; try congruence; auto.
  - exfalso. exact (g_total _ good_u64 _ D).
Qed.

Lemma hostile_stream w canc r : 62 <= w -> no_empty_piece r ->
  match recv_stream w canc r with
  | NoGroup a => a <> AFuel
  | Arrived h t g => t <> TPanic /\ t <> TFuel /\ sound_group w g /\
      (t = TDone -> ends r = Fin) /\ (rg_closed g = Some Finished <-> t = TDone) /\
      (t = TPending -> ends r = Open) /\ header_ok h
  end.
Proof.
  intros Hw NE. unfold recv_stream.
  pose proof (reader_decode_flat data_type_decode r (good_kind w KData)) as D1.
  destruct (reader_decode data_type_decode r) as [a1 r1]. destruct D1 as (D1 & R1).
  assert (NF1 : a1 <> AFuel).
  { unfold flat_decode in D1. destruct (data_type_decode (content r)) as [m rest|e|] eqn:D.
    - congruence. - destruct e; try congruence. destruct (ends r); congruence.
    - exfalso. exact (g_total _ (good_kind w KData) _ D). }
  destruct a1 as [[]|e| |]; try congruence.
  pose proof (reader_decode_flat group_header_decode r1 (good_kind w KGroup)) as D2.
  destruct (reader_decode group_header_decode r1) as [a2 r2]. destruct D2 as (D2 & R2).
  assert (NF2 : a2 <> AFuel).
  { unfold flat_decode in D2. destruct (group_header_decode (content r1)) as [m rest|e|] eqn:D.
    - congruence. - destruct e; try congruence. destruct (ends r1); congruence.
    - exfalso. exact (g_total _ (good_kind w KGroup) _ D). }
  destruct a2 as [h|e| |]; try congruence.
  assert (Hh : header_ok h).
  { unfold flat_decode in D2. destruct (group_header_decode (content r1)) as [m rest|e|] eqn:D.
    - injection D2 as -> _. unfold group_header_decode, dbind in D.
      destruct (u64_decode (content r1)) as [x y| |] eqn:Dx; try discriminate.
      destruct (u64_decode y) as [x' y'| |] eqn:Dy; try discriminate. injection D as <- _.
      apply varint_decode_sound in Dx, Dy. destruct Dx as (? & _ & Dx), Dy as (? & _ & Dy).
      split; cbn; eapply is_varint_lt; eassumption.
    - destruct e; try discriminate. destruct (ends r1); discriminate.
    - discriminate. }
  assert (NE2 : no_empty_piece r2) by (eapply ok_rest_ne; [exact R2|]; eapply ok_rest_ne; eauto).
  pose proof (run_group_hostile w Hw (S (available r2)) [] r2 NE2
                ltac:(rewrite available_content; lia) ltac:(constructor)) as H.
  destruct (run_group w (S (available r2)) [] r2) as [[t g] r3] eqn:G.
  rewrite (settle_eq w canc r2 t g r3 G). rewrite (proj1 R2), (proj1 R1) in H.
  destruct H as (H1 & H2 & H3 & H4 & H5 & H6 & H7).
  assert (SG : forall c, sound_group w (RGroup (rg_frames g) c)) by (intros c; exact H3).
  destruct t as [|e| | |]; try congruence; cbn [settled_as fst snd rg_closed].
  - repeat split; try discriminate; auto; try apply Hh.
  - destruct e; cbn [fst snd]; repeat split; try discriminate; try congruence; auto; try apply Hh.
  - destruct canc; cbn [fst snd]; repeat split; try discriminate; try congruence; auto; try apply Hh.
    intros Hc. apply H5 in Hc. discriminate.
Qed.
