(** Handshakes, groups, requests and media frames between the JavaScript and the Rust library. *)
From Coq Require Import NArith ZArith List Lia Bool.
From Coq Require Import Init.Byte Strings.Byte.
From Coq Require Import ZifyBool ZifyNat ZifyN.
From Verif.Model Require Import Base Coding Message ErrorCode Stream Frame Transfer Session Media Location JsWire.
From Verif.Spec Require Import CodingSpec MessageSpec StreamSpec SessionSpec TransferSpec JsWireSpec.
From Verif.Proofs Require Import BaseP CodingP MessageP StreamP SessionP TransferP TransferTop JsWireP JsHearP.
Import ListNotations.
Open Scope N_scope.

(** ** The handshake *)
Lemma hello_is : exists bs, j_hello = Some bs /\ request_bytes [our_version] bs.
Proof.
  eexists. split; [reflexivity|]. eexists _, _. split; [reflexivity|]. split; [reflexivity|]. vm_compute. reflexivity.
Qed.
Lemma no_extensions : safe_extensions [].
Proof. split; [reflexivity|]. split; constructor. Qed.
Lemma connect_good v bs r rest : reply_bytes v bs -> content r = bs ++ rest ->
  (gets j_connect r tt rest <-> v = our_version).
Proof.
  intros (c & E & ->) C. rewrite (gets_iff _ _ _ _ _ den_connect), C. unfold f_connect, fbind. split.
  - intros H. destruct (N.lt_ge_cases v (2 ^ 53)) as [S|S].
    + rewrite (JsHearP.server_wire _ c rest E S no_extensions) in H.
      cbn [ss_version] in H. destruct (v =? js_version) eqn:V; [|discriminate]. apply N.eqb_eq in V. exact V.
    + exfalso. cbn [encode_kind] in E. unfold server_setup_encode in E. apply eseq_val in E. destruct E as (x & y & E1 & E2 & ->).
      rewrite wire_app, <- app_assoc in H. unfold f_server, fbind in H. cbn [ss_version] in E1. unfold version_encode in E1.
      rewrite (f53_throw _ _ _ E1) in H; [discriminate|]. unfold safe. lia.
  - intros ->. rewrite (JsHearP.server_wire _ c rest E); [reflexivity| |].
    + reflexivity.
    + exact no_extensions.
Qed.
(** Whatever else the answer is, the client goes on only with its own version. *)
Lemma connect_strict r rest : gets j_connect r tt rest -> exists rest', starts_with our_version (content r) rest'.
Proof.
  rewrite (gets_iff _ _ _ _ _ den_connect). unfold f_connect, f_server. unfold fbind at 1. unfold fbind at 1. intros H.
  destruct (f_u53 (content r)) as [v r1| | |] eqn:F; try discriminate.
  unfold fbind in H. destruct (f_extensions r1) as [x r2| | |] eqn:X; try discriminate. cbn [fret ss_version] in H.
  destruct (v =? js_version) eqn:V; [|discriminate]. apply N.eqb_eq in V.
  unfold f_u53, fbind, f_u62 in F. destruct (u64_decode (content r)) as [v' r'|e|] eqn:D; try discriminate.
  destruct (max_u53 <? v'); [discriminate|]. injection F as -> ->.
  destruct (varint_decode_sound _ _ _ D) as (p & Ep & Vp). exists r1, p. subst v. auto.
Qed.
Lemma shake w more r s : (exists bs, j_hello = Some bs /\ content r = bs ++ more) -> lively (sd_sched s) -> (9 <= length (sd_sched s))%nat ->
  exists r' s' answer, accept w r s = Shaken (Val (AOk tt)) r' s' /\ sd_sent s' = sd_sent s ++ answer /\ content r' = more /\
    forall rc rest, content rc = answer ++ rest -> gets j_connect rc tt rest.
Proof.
  intros (bs & E & C) L B. destruct hello_is as (bs' & E' & R). assert (bs' = bs) as -> by congruence.
  assert (O : offers w [our_version] (content r) more).
  { destruct R as (t & c & Et & Ec & ->). rewrite C, <- app_assoc. exists [], (wire c ++ more). split.
    - exists (wire t). split; [|reflexivity]. injection Et as <-. exists 0. split; [lia|]. unfold varint_form. vm_compute. auto.
    - cbn [encode_kind] in Ec. destruct (rt_kind w KClientSetup (ClientSetup [our_version] [])) as (c' & Ec' & D).
      { cbn. unfold ok_versions, ok_extensions. repeat split; try (cbn; lia); repeat constructor. }
      cbn [encode_kind] in Ec'. assert (c' = c) as -> by congruence. apply D. }
  destruct (server_exact w r s) as (a & r' & s' & EA & F & A & G & _).
  pose proof (G _ _ O (or_introl eq_refl) L B) as ->. destruct (A eq_refl) as (vs & rest & O' & I' & C' & ans & Ra & Sa).
  exists r', s', ans. split; [exact EA|]. split; [exact Sa|]. split.
  - destruct O as (x & r0 & (p & Vp & Ep) & D0). destruct O' as (x' & r0' & (p' & Vp' & Ep') & D0').
    assert (r0 = r0').
    { destruct Vp as (k & Hk & Hf). destruct Vp' as (k' & Hk' & Hf').
      pose proof (varint_decode_complete k 0 p r0 Hk Hf) as X. pose proof (varint_decode_complete k' 0 p' r0' Hk' Hf') as X'.
      rewrite <- Ep in X. rewrite <- Ep' in X'. congruence. }
    subst r0'. rewrite D0 in D0'. congruence.
  - intros rc rest' Cc. apply (connect_good our_version ans rc rest' Ra Cc). reflexivity.
Qed.

(** ** Groups from Rust *)
Lemma done_spec r : no_empty_piece r ->
  match content r with
  | [] => fst (j_done r) = match ends r with Fin => JOk true | Reset => JThrow | Open => JWait end
  | _ => exists r', j_done r = (JOk false, r') /\ content r' = content r /\ ends r' = ends r /\ no_empty_piece r'
  end.
Proof.
  destruct r as [buf [cs e]]. unfold content, ends, no_empty_piece, j_done. cbn [rd_buf rd_stream rc_chunks rc_end]. intros NE.
  destruct buf as [|b buf].
  - cbn [app]. destruct cs as [|c cs]; [reflexivity|]. inversion NE as [|? ? N1 N2]; subst.
    destruct (concat (c :: cs)) eqn:E; [destruct c; [congruence|discriminate]|]. rewrite <- E.
    eexists. split; [reflexivity|]. cbn. auto.
  - cbn [app]. eexists. split; [reflexivity|]. cbn. auto.
Qed.

Lemma f53_short size p : size < 2 ^ 62 -> strict_prefix p (hdr_of size) -> f_u53 p = FShort.
Proof.
  intros H P. unfold f_u53, fbind, f_u62. pose proof (hdr_short size p H P) as E. unfold frame_header_decode in E. rewrite E. reflexivity.
Qed.
Lemma f53_hdr size rest : safe size -> f_u53 (hdr_of size ++ rest) = FOk size rest.
Proof.
  intros H. destruct (hdr_encode size) as (ps & E & <-); [unfold safe in H; change (2 ^ 53) with 9007199254740992 in H; change (2 ^ 62) with 4611686018427387904; lia|].
  apply f53; assumption.
Qed.
Lemma safe_62 v : safe v -> v < 2 ^ 62.
Proof. unfold safe. change (2 ^ 53) with 9007199254740992. change (2 ^ 62) with 4611686018427387904. lia. Qed.

(** Frames that can be on one stream, counted by JavaScript. *)
Fixpoint fair (l : list (N * bytes)) : Prop :=
  match l with
  | [] => True
  | f :: l' => len (snd f) <= fst f /\ safe (fst f) /\ (l' = [] \/ len (snd f) = fst f) /\ fair l'
  end.

Lemma frames_read : forall l p fuel fs r, fair l -> prefix p (wire_frames l) -> content r = p -> no_empty_piece r ->
  (length p < fuel)%nat ->
  exists n o, j_frames fuel fs r = (fs ++ map snd (firstn n l), o) /\ Forall full (firstn n l) /\ o <> JFuel /\
    (ends r = Open -> o = JWait) /\ (ends r <> Open -> o <> JWait) /\
    (o = JOk tt -> ends r = Fin /\ p = wire_frames (firstn n l)) /\
    (p = wire_frames l -> Forall full l -> firstn n l = l /\ (ends r = Fin -> o = JOk tt)).
Proof.
  induction l as [|f l IH]; intros p fuel fs r S P C NE Lf; (destruct fuel as [|fuel]; [lia|]).
  - assert (p = []) as -> by (destruct P as [q E]; cbn in E; destruct p; [reflexivity|discriminate]).
    pose proof (done_spec r NE) as D. rewrite C in D. cbn [j_frames]. destruct (j_done r) as [x r']. cbn [fst] in D. subst x.
    exists 0%nat. cbn [firstn map]. rewrite app_nil_r.
    destruct (ends r) eqn:E; eexists; (split; [reflexivity|]); repeat split; auto; try congruence; intros; discriminate.
  - destruct S as (S1 & S2 & S3 & S4). rewrite wire_frames_cons in P.
    destruct p as [|b p].
    { pose proof (done_spec r NE) as D. rewrite C in D. cbn [j_frames]. destruct (j_done r) as [x r']. cbn [fst] in D. subst x.
      exists 0%nat. cbn [firstn map]. rewrite app_nil_r.
      assert (Hn : [] <> wire_frames (f :: l)).
      { rewrite wire_frames_cons. pose proof (hdr_nonempty (fst f) (safe_62 _ S2)). destruct (hdr_of (fst f)); [congruence|discriminate]. }
      destruct (ends r) eqn:E; eexists; (split; [reflexivity|]); (split; [constructor|]);
        (split; [discriminate|]); (split; [intros; congruence|]); (split; [intros; congruence|]); (split; [intros; auto; discriminate|]);
        intros K; congruence. }
    pose proof (done_spec r NE) as D. rewrite C in D. destruct D as (r1 & E1 & C1 & N1 & NE1). cbn [j_frames]. rewrite E1.
    destruct (den_frame r1) as (r2 & E2 & N2 & NE2 & C2). rewrite E2. rewrite C1 in *.
    assert (Stop : f_frame (b :: p) = FShort -> (b :: p <> wire_frames (f :: l) \/ ~ full f) ->
      exists n o, (match jout_of (ends r1) (f_frame (b :: p)) with
                   | JOk f0 => j_frames fuel (fs ++ [f0]) r2 | JThrow => (fs, JThrow) | JWait => (fs, JWait) | JFuel => (fs, JFuel) end)
        = (fs ++ map snd (firstn n (f :: l)), o) /\ Forall full (firstn n (f :: l)) /\ o <> JFuel /\
        (ends r = Open -> o = JWait) /\ (ends r <> Open -> o <> JWait) /\
        (o = JOk tt -> ends r = Fin /\ b :: p = wire_frames (firstn n (f :: l))) /\
        (b :: p = wire_frames (f :: l) -> Forall full (f :: l) -> firstn n (f :: l) = f :: l /\ (ends r = Fin -> o = JOk tt))).
    { intros Sh Ne. rewrite Sh. exists 0%nat. cbn [firstn map jout_of]. rewrite app_nil_r, N1. unfold stuck.
      destruct (ends r) eqn:E; eexists; (split; [reflexivity|]); (split; [constructor|]); (split; [discriminate|]);
        (split; [congruence|]); (split; [congruence|]); (split; [intros; discriminate|]);
        intros K1 K2; exfalso; inversion K2; destruct Ne as [Ne|Ne]; [exact (Ne K1)|exact (Ne H1)|exact (Ne K1)|exact (Ne H1)|exact (Ne K1)|exact (Ne H1)]. }
    destruct (prefix_app_cases _ _ _ P) as [SP|(q & Eq & Pq)].
    { apply Stop.
      - unfold f_frame, fbind. rewrite (f53_short (fst f) _ (safe_62 _ S2) SP). reflexivity.
      - left. intros K. rewrite wire_frames_cons in K. destruct SP as (x & Nx & Ex). rewrite Ex, <- app_assoc in K.
        apply (f_equal (@length byte)) in K. rewrite !app_length in K. destruct x; [congruence|cbn in K; lia]. }
    rewrite Eq in *. clear Eq b p.
    destruct (N.lt_ge_cases (len q) (fst f)) as [Lq|Lq].
    { apply Stop.
      - unfold f_frame, fbind. rewrite f53_hdr by exact S2. unfold f_read. destruct (fst f =? 0) eqn:Z0; [lia|]. unfold f_take.
        destruct (len q <? fst f) eqn:L; [reflexivity|lia].
      - destruct (N.eq_dec (len (snd f)) (fst f)) as [Fl|Fl]; [left|right; exact Fl]. intros K. rewrite wire_frames_cons in K.
        apply app_inv_head in K. rewrite K, len_app in Lq. lia. }
    assert (Fl : len (snd f) = fst f).
    { destruct S3 as [->|Fl]; [|exact Fl]. cbn [wire_frames] in Pq. rewrite app_nil_r in Pq. apply prefix_length in Pq. unfold len in *. lia. }
    destruct (prefix_app_cases _ _ _ Pq) as [(x & Nx & Ex)|(q' & Eq' & Pq')].
    { exfalso. rewrite Ex, len_app in Fl. destruct x; [congruence|]. rewrite len_cons in Fl. lia. }
    rewrite Eq' in *. clear Eq' q Pq.
    assert (Ff : f_frame (hdr_of (fst f) ++ snd f ++ q') = FOk (snd f) q').
    { unfold f_frame, fbind. rewrite f53_hdr by exact S2. apply f_read_app. exact Fl. }
    rewrite Ff in C2 |- *. cbn [jout_of].
    destruct (IH q' fuel (fs ++ [snd f]) r2 S4 Pq' C2 (NE2 NE1)) as (n & o & G1 & G2 & G3 & G4 & G5 & G6 & G7).
    { pose proof (hdr_nonempty (fst f) (safe_62 _ S2)) as Hn. rewrite !app_length in Lf. destruct (hdr_of (fst f)); [congruence|cbn in Lf; lia]. }
    rewrite N2, N1 in *. exists (S n), o. cbn [firstn map]. split; [rewrite G1, <- app_assoc; reflexivity|].
    split; [constructor; [exact Fl|exact G2]|]. split; [exact G3|]. split; [exact G4|]. split; [exact G5|]. split.
    + intros Ho. destruct (G6 Ho) as [Q1 Q2]. split; [exact Q1|]. rewrite wire_frames_cons, Q2. reflexivity.
    + intros K1 K2. inversion K2; subst. rewrite wire_frames_cons in K1. apply app_inv_head in K1. apply app_inv_head in K1.
      destruct (G7 K1 H2) as [Q1 Q2]. rewrite Q1. auto.
Qed.

Lemma wired_fair : forall fs, Forall honest_frame fs -> Forall countable fs -> fair (wired fs).
Proof.
  induction fs as [|f fs IH]; intros H S; [exact I|]. inversion H as [|? ? [H1 H2] H3]; inversion S as [|? ? S1 S2]; subst.
  cbn [wired fair fst snd]. split; [exact H1|]. split; [exact S1|]. split.
  - destruct (fv_end f) as [[]|e| |] eqn:E; auto.
  - destruct (fv_end f); cbn; auto.
Qed.
Lemma countable_62 fs : Forall countable fs -> Forall (fun f => fv_size f < 2 ^ 62) fs.
Proof. intros H. eapply Forall_impl; [|exact H]. intros f S. exact (safe_62 _ S). Qed.
Lemma payload_pairs fs : map snd (map pair_of fs) = map (fun f => concat (fv_chunks f)) fs.
Proof. rewrite map_map. reflexivity. Qed.

Lemma left_content r : j_left r = length (content r).
Proof. unfold j_left, content. rewrite app_length. reflexivity. Qed.

(** The header, or a part of it. *)
Lemma uni_whole hdr h p r : group_header_encode hdr = Val h -> safe (gh_sequence hdr) -> content r = x00 :: wire h ++ p ->
  exists r', j_accept_uni r = (JOk hdr, r') /\ content r' = p /\ ends r' = ends r /\ (no_empty_piece r -> no_empty_piece r').
Proof.
  intros E S C. destruct (den_accept_uni r) as (r' & E1 & N1 & NE & C1).
  assert (F : f_accept_uni (content r) = FOk hdr p).
  { rewrite C. unfold f_accept_uni, fbind, f_u8. change (n_of x00 =? 0) with true. cbv iota. apply group_wire; assumption. }
  rewrite F in *. exists r'. auto.
Qed.
Lemma group_short hdr h p : header_ok hdr -> group_header_encode hdr = Val h -> safe (gh_sequence hdr) ->
  strict_prefix p (wire h) -> f_group p = FShort.
Proof.
  intros Hh E S SP.
  pose proof (rt_good_short (wf 64 KGroup) (encode_kind KGroup) (decode_kind 64 KGroup) (good_kind 64 KGroup) (rt_kind 64 KGroup) hdr h p Hh E SP) as D.
  cbn [decode_kind] in D. unfold group_header_decode in D. unfold f_group, fbind, f_u62.
  destruct (u64_decode p) as [v r|e|] eqn:D1; cbn [dbind] in D; [|reflexivity|discriminate].
  unfold f_u53, fbind, f_u62. destruct (u64_decode r) as [v2 r2|e|] eqn:D2; cbn [dbind] in D; [discriminate|reflexivity|discriminate].
Qed.
Lemma uni_cut hdr h p r : header_ok hdr -> group_header_encode hdr = Val h -> safe (gh_sequence hdr) -> content r = p ->
  strict_prefix p (x00 :: wire h) -> fst (j_accept_uni r) = stuck (ends r).
Proof.
  intros Hh E S C (x & Nx & Ex). rewrite (fst_den _ _ _ den_accept_uni), C. unfold f_accept_uni, fbind, f_u8.
  destruct p as [|b p]; [reflexivity|]. cbn in Ex. injection Ex as <- Ex. change (n_of x00 =? 0) with true. cbv iota.
  rewrite (group_short hdr h p Hh E S); [reflexivity|]. exists x. auto.
Qed.

Lemma group_to_js hdr v sched sv s r : header_ok hdr -> safe (gh_sequence hdr) ->
  Forall honest_frame (gv_frames v) -> Forall countable (gv_frames v) ->
  serve_group hdr v (Send [] sched) = (sv, s) -> prefix (content r) (sd_sent s) -> no_empty_piece r ->
  match j_group_stream r with
  | (JOk h, (fs, o)) => h = hdr /\ prefix fs (payloads v) /\ o <> JFuel /\ (ends r = Open -> o = JWait) /\ (ends r <> Open -> o <> JWait) /\
      (sv = SFinished -> content r = sd_sent s -> fs = payloads v /\ (ends r = Fin -> o = JOk tt)) /\
      (delivered sv s r -> o = JOk tt -> finished_view v /\ fs = payloads v)
  | (x, _) => (x = match ends r with Open => JWait | _ => JThrow end) /\ (sv = SFinished -> content r <> sd_sent s)
  end.
Proof.
  intros Hh Sq HF HC S P NE.
  destruct (serve_group_emits hdr v Hh (countable_62 _ HC)) as (h & Eh & Em).
  destruct (Em _ _ _ S) as (p & Ep & Pp & Fp). cbn [sd_sent app] in Ep.
  assert (Pc : prefix (content r) (x00 :: wire h ++ wire_frames (wired (gv_frames v)))).
  { eapply prefix_trans; [exact P|]. rewrite Ep. exact Pp. }
  change (x00 :: wire h ++ wire_frames (wired (gv_frames v))) with ((x00 :: wire h) ++ wire_frames (wired (gv_frames v))) in Pc.
  destruct (prefix_app_cases _ _ _ Pc) as [SP|(q & Eq & Pq)].
  - pose proof (uni_cut hdr h _ r Hh Eh Sq eq_refl SP) as U. unfold j_group_stream. destruct (j_accept_uni r) as [x r']. cbn [fst] in U.
    assert (K : sv = SFinished -> content r <> sd_sent s).
    { intros Hs K. destruct (Fp Hs) as [-> _]. rewrite Ep in K. destruct SP as (y & Ny & Ey). rewrite K in Ey. unfold top_wire in Ey.
      change (x00 :: wire h ++ wire_frames (wired (gv_frames v))) with ((x00 :: wire h) ++ wire_frames (wired (gv_frames v))) in Ey.
      apply (f_equal (@length byte)) in Ey. rewrite !app_length in Ey. destruct y; [congruence|cbn in Ey; lia]. }
    rewrite U. unfold stuck. destruct (ends r); split; auto.
  - cbn [app] in Eq. destruct (uni_whole hdr h q r Eh Sq Eq) as (r' & E1 & C1 & N1 & NE1). unfold j_group_stream. rewrite E1.
    destruct (frames_read (wired (gv_frames v)) q (Datatypes.S (j_left r')) [] r' (wired_fair _ HF HC) Pq C1 (NE1 NE))
      as (n & o & G1 & G2 & G3 & G4 & G5 & G6 & G7); [rewrite left_content, C1; lia|].
    rewrite G1. cbn [app]. rewrite N1 in *. destruct (firstn_wired n (gv_frames v)) as (m & Em' & _).
    split; [reflexivity|]. split.
    { rewrite Em', payload_pairs. unfold payloads. exists (map (fun f => concat (fv_chunks f)) (skipn m (gv_frames v))).
      rewrite <- map_app, firstn_skipn. reflexivity. }
    split; [exact G3|]. split; [exact G4|]. split; [exact G5|].
    assert (All : sv = SFinished -> content r = sd_sent s ->
      finished_view v /\ map snd (firstn n (wired (gv_frames v))) = payloads v /\ (ends r = Fin -> o = JOk tt)).
    { intros Hs Hc. destruct (Fp Hs) as [-> Fv]. split; [exact Fv|]. destruct Fv as [W _]. rewrite Hc, Ep in Eq. unfold top_wire in Eq.
      injection Eq as Eq. apply app_inv_head in Eq. symmetry in Eq.
      destruct (G7 Eq) as [Q1 Q2]; [rewrite wired_all by exact W; apply honest_full; assumption|].
      split; [|exact Q2]. rewrite Q1, wired_all by exact W. apply payload_pairs. }
    split.
    + intros Hs Hc. destruct (All Hs Hc) as (_ & Q1 & Q2). auto.
    + intros (_ & _ & Tr) Ho. destruct (G6 Ho) as [Ef _]. destruct (Tr Ef) as [Hs Hc]. destruct (All Hs Hc) as (Q0 & Q1 & _). auto.
Qed.

(** ** Groups from JavaScript *)
Definition counted (frames : list bytes) : list (N * bytes) := map (fun f => (len f, f)) frames.
Lemma w_frames_is : forall frames, Forall (fun f => safe (N.of_nat (length f))) frames ->
  fold_right (fun f k => jseq (w_frame f) k) (Some []) frames = Some (wire_frames (counted frames)).
Proof.
  induction frames as [|f fs IH]; intros H; [reflexivity|]. inversion H; subst. cbn [fold_right]. rewrite IH by assumption.
  destruct (w53_same _ H2) as (ps & E & W). unfold w_frame. unfold len. rewrite W. cbn [jseq w_bytes counted map].
  rewrite wire_frames_cons. cbn [fst snd]. unfold hdr_of, frame_header_encode, len. rewrite E, <- app_assoc. reflexivity.
Qed.
Lemma js_view_wired frames : wired (js_view frames) = counted frames.
Proof.
  unfold js_view, counted. induction frames as [|f fs IH]; [reflexivity|]. cbn [map wired fv_size fv_chunks fv_end concat]. rewrite app_nil_r, IH. reflexivity.
Qed.
Lemma good_short {A} (dec : decoder A) a bs p : good dec -> (forall rest, dec (bs ++ rest) = DOk a rest) -> strict_prefix p bs -> dec p = DErr Short.
Proof.
  intros G D (x & Hx & Hp). specialize (D []). rewrite app_nil_r in D.
  destruct (dec p) as [a' r|e|] eqn:Ed.
  - exfalso. pose proof (g_ok _ G _ _ _ x Ed) as H. rewrite <- Hp, D in H. injection H as _ Hr.
    destruct r; [|discriminate]. apply Hx. cbn in Hr. congruence.
  - destruct e; try reflexivity; exfalso;
    (pose proof (g_err _ G _ _ x Ed) as H; rewrite <- Hp, D in H; discriminate H; discriminate).
  - exfalso. exact (g_total _ G _ Ed).
Qed.

Lemma group_from_js w canc h frames : gh_subscribe h < 2 ^ 62 -> safe (gh_sequence h) ->
  Forall (fun f => safe (N.of_nat (length f)) /\ N.of_nat (length f) < 2 ^ w) frames ->
  exists bs, w_group_stream h frames = Some bs /\ forall r, prefix (content r) bs -> no_empty_piece r ->
    match recv_stream w canc r with
    | NoGroup a => a = match ends r with Fin => AErr (Decode Short) | Reset => AErr WebTransport | Open => APending end /\ content r <> bs
    | Arrived h' t g => h' = h /\ arrived_from (js_view frames) (frames_of g) /\
        (content r = bs -> frames_of g = map whole (js_view frames) /\ (ends r = Fin -> t = TDone /\ rg_closed g = Some Finished))
    end.
Proof.
  intros Hs Hq HF. destruct (heard_group w h (conj Hs Hq)) as (hb & Eh & Dh). cbn [decode_kind] in Dh.
  assert (HF1 : Forall (fun f => safe (N.of_nat (length f))) frames) by (eapply Forall_impl; [|exact HF]; intros f [S1 _]; exact S1).
  exists (x00 :: hb ++ wire_frames (counted frames)). split.
  { unfold w_group_stream. rewrite (w_frames_is frames HF1). unfold w_u8. rewrite Eh. reflexivity. }
  intros r P NE. rewrite <- js_view_wired in *. set (fs := js_view frames) in *.
  assert (HH : Forall honest_frame fs).
  { unfold fs, js_view. rewrite Forall_map. apply Forall_forall. intros f _. split; cbn [fv_chunks fv_size concat]; rewrite app_nil_r; [lia|auto]. }
  assert (SF : Forall (sizes_fit w) fs).
  { unfold fs, js_view. rewrite Forall_map. eapply Forall_impl; [|exact HF]. intros f [S1 S2]. split; [exact (safe_62 _ S1)|exact S2]. }
  assert (W : Forall is_whole fs) by (unfold fs, js_view; rewrite Forall_map; apply Forall_forall; intros f _; reflexivity).
  unfold recv_stream.
  pose proof (reader_decode_flat data_type_decode r (good_kind w KData)) as D1.
  destruct (reader_decode data_type_decode r) as [a1 r1]. destruct D1 as (D1 & R1).
  destruct (content r) as [|b p] eqn:C.
  { unfold flat_decode in D1. cbn in D1. destruct (ends r); injection D1 as -> _; (split; [reflexivity|discriminate]). }
  assert (b = x00) as -> by (destruct P as [q E]; cbn in E; injection E; congruence).
  assert (P' : prefix p (hb ++ wire_frames (wired fs))).
  { destruct P as [q E]. exists q. cbn in E. congruence. }
  unfold flat_decode in D1. cbn in D1. injection D1 as -> C1.
  pose proof (reader_decode_flat group_header_decode r1 (good_kind w KGroup)) as D2.
  destruct (reader_decode group_header_decode r1) as [a2 r2]. destruct D2 as (D2 & R2). rewrite C1 in D2.
  rewrite (proj1 R1) in D2.
  destruct (prefix_app_cases _ _ _ P') as [SP|(p' & -> & P2)].
  { unfold flat_decode in D2. rewrite (good_short group_header_decode h hb p (good_kind w KGroup) Dh SP) in D2.
    assert (K : x00 :: p <> x00 :: hb ++ wire_frames (wired fs)).
    { intros K. injection K as K. destruct SP as (y & Ny & Ey). rewrite Ey, <- app_assoc in K.
      apply (f_equal (@length byte)) in K. rewrite !app_length in K. destruct y; [congruence|cbn in K; lia]. }
    destruct (ends r); injection D2 as -> _; (split; [reflexivity|exact K]). }
  unfold flat_decode in D2. rewrite Dh in D2. injection D2 as -> C2.
  assert (NE2 : no_empty_piece r2) by (eapply ok_rest_ne; [exact R2|]; eapply ok_rest_ne; eauto).
  destruct (run_group_prefix w (wired fs) (wired_shape w fs HH SF) p' P2 (S (available r2)) [] r2 NE2 C2)
    as (n & t & closed & infl & frs & r' & G1 & G2 & G3 & G4).
  { rewrite available_content, C2. lia. }
  rewrite (settle_eq _ _ _ _ _ _ G1). cbn [rg_frames rg_closed app]. rewrite (proj1 R2), (proj1 R1) in G4.
  split; [reflexivity|]. change (frames_of (RGroup frs (snd (settled_as canc t closed)))) with (norm frs). rewrite G3. split.
  - eapply stop_arrived; eassumption.
  - intros K. injection K as K. apply app_inv_head in K. subst p'.
    rewrite wired_all in * by exact W. rewrite K in G4.
    destruct (stop_total w (map pair_of fs) _ _ _ _ _ ltac:(rewrite <- wired_all by exact W; apply wired_shape; assumption)
                (honest_full _ HH W) G2 G4) as (H1 & -> & -> & ->).
    rewrite H1, app_nil_r, map_done. split; [reflexivity|]. intros ->. cbn. auto.
Qed.

(** ** Requests, one after another *)
Lemma accept_loop_nth {A} (acc : js A) : forall rs i r a r', nth_error rs i = Some r ->
  (nth_error (accept_loop acc rs) i = Some (Some (a, r')) <->
   acc r = (JOk a, r') /\ forall j rj, (j < i)%nat -> nth_error rs j = Some rj -> exists b rj', acc rj = (JOk b, rj')).
Proof.
  induction rs as [|r0 rs IH]; intros i r a r' H; [destruct i; discriminate|].
  destruct i as [|i]; cbn [nth_error] in H.
  - injection H as ->. cbn [accept_loop]. destruct (acc r) as [x rx] eqn:E. split.
    + intros G. destruct x; cbn in G; try discriminate. injection G as -> ->. split; [reflexivity|]. intros j rj Hj. lia.
    + intros [G _]. injection G as -> ->. reflexivity.
  - cbn [accept_loop]. destruct (acc r0) as [x rx] eqn:E. split.
    + intros G. destruct x; cbn [map nth_error] in G;
        try (rewrite nth_error_map in G; destruct (nth_error rs i); discriminate).
      apply (IH i r a r' H) in G. destruct G as [G1 G2]. split; [exact G1|]. intros [|j] rj Hj Hr.
      * cbn in Hr. injection Hr as <-. eauto.
      * cbn in Hr. apply (G2 j rj); [lia|exact Hr].
    + intros [G1 G2]. destruct (G2 0%nat r0 ltac:(lia) eq_refl) as (b & rj & G3). rewrite E in G3. injection G3 as -> ->.
      cbn [nth_error]. apply (IH i r a r' H). split; [exact G1|]. intros j rj' Hj Hr. apply (G2 (S j) rj'); [lia|exact Hr].
Qed.

Section Text.
Context (lossy : bytes -> bytes).

Lemma asks_read q bs r rest : asks q bs -> mild q -> content r = bs ++ rest -> gets (j_accept_bi lossy) r q rest.
Proof.
  intros A M C. apply (gets_of _ _ _ _ _ (den_accept_bi lossy)). rewrite C. destruct q as [m|p|m]; cbn [asks mild] in *; [contradiction| |].
  - destruct A as (T & P & t & c & Et & Ec & ->). injection Et as <-. cbn [encode_kind] in Ec. unfold announce_request_encode in Ec.
    change (wire _ ++ wire c) with (x01 :: wire c). cbn [app]. unfold f_accept_bi, fbind, f_u8. change (n_of x01) with 1. cbn [N.eqb Pos.eqb].
    rewrite (fstring_plain lossy p c rest Ec T P). reflexivity.
  - destruct A as (m' & <- & (T1 & T2 & [P1 L1] & [P2 L2]) & t & c & Et & Ec & ->). injection Et as <-.
    change (wire _ ++ wire c) with (x02 :: wire c). cbn [app]. unfold f_accept_bi. unfold fbind at 1. unfold f_u8. change (n_of x02) with 2. cbn [N.eqb Pos.eqb].
    unfold fbind at 1. rewrite (subscribe_wire lossy m' c rest Ec) by assumption. unfold fbind. rewrite f53_small by exact M.
    rewrite !text_plain by assumption. reflexivity.
Qed.
Lemma asks_stuck q bs r : asks q bs -> ~ mild q -> content r = bs -> ends r = Open -> fst (j_accept_bi lossy r) = JWait.
Proof.
  intros A M C E. rewrite (fst_den _ _ _ (den_accept_bi lossy)), C, E. destruct q as [m|p|m]; cbn [asks mild] in *; [contradiction|tauto|].
  destruct A as (m' & <- & (T1 & T2 & [P1 L1] & [P2 L2]) & t & c & Et & Ec & ->). injection Et as <-.
  change (wire _ ++ wire c) with (x02 :: wire c). unfold f_accept_bi. unfold fbind at 1. unfold f_u8. change (n_of x02) with 2. cbn [N.eqb Pos.eqb].
  unfold fbind at 1. rewrite <- (app_nil_r (wire c)), (subscribe_wire lossy m' c [] Ec) by assumption. unfold fbind.
  cbn [subscribe_view js_priority] in M. rewrite f53_alone by (unfold n_of; lia). reflexivity.
Qed.

Lemma loop_exact qs rs i q : Forall2 asked qs rs -> nth_error qs i = Some q ->
  ((exists r', nth_error (accept_loop (j_accept_bi lossy) rs) i = Some (Some (q, r'))) <-> Forall mild (firstn (S i) qs)) /\
  (~ Forall mild (firstn (S i) qs) -> nth_error (accept_loop (j_accept_bi lossy) rs) i = Some None).
Proof.
  intros F Hq.
  assert (G : forall j qj, nth_error qs j = Some qj -> exists rj, nth_error rs j = Some rj /\ asked qj rj).
  { clear - F. induction F as [|q0 r0 qs rs A F IH]; intros j qj H; [destruct j; discriminate|].
    destruct j; cbn in *; [injection H as <-; eauto|]. apply IH, H. }
  assert (Len : forall j rj, nth_error rs j = Some rj -> exists qj, nth_error qs j = Some qj /\ asked qj rj).
  { clear - F. induction F as [|q0 r0 qs rs A F IH]; intros j rj H; [destruct j; discriminate|].
    destruct j; cbn in *; [injection H as <-; eauto|]. apply IH, H. }
  destruct (G i q Hq) as (r & Hr & (bs & A & C & E)).
  assert (Res : forall qj rj, asked qj rj -> (mild qj <-> exists b rj', j_accept_bi lossy rj = (JOk b, rj'))).
  { intros qj rj (b & Aj & Cj & Ej). split.
    - intros M. destruct (asks_read qj b rj [] Aj M) as (r' & E1 & _); [rewrite app_nil_r; exact Cj|]. eauto.
    - intros (x & rj' & Hx). destruct (N.lt_ge_cases (match qj with BiSubscribe m => js_priority m | _ => 0 end) 64) as [L|L];
        [destruct qj; cbn; auto|]. exfalso.
      assert (NM : ~ mild qj) by (destruct qj; cbn; lia).
      pose proof (asks_stuck qj b rj Aj NM Cj Ej) as K. rewrite Hx in K. discriminate. }
  assert (Front : Forall mild (firstn (S i) qs) <-> forall j qj, (j <= i)%nat -> nth_error qs j = Some qj -> mild qj).
  { clear. revert i. induction qs as [|q0 qs IH]; intros i.
    - split; [intros _ j qj _ H; destruct j; discriminate|intros _; constructor].
    - cbn [firstn]. split.
      + intros H. inversion H; subst. intros [|j] qj Hj Hq; cbn in Hq; [injection Hq as <-; assumption|].
        destruct i; [lia|]. apply (proj1 (IH i) H3 j); [lia|exact Hq].
      + intros H. constructor; [apply (H 0%nat); [lia|reflexivity]|]. destruct i; [constructor|].
        apply IH. intros j qj Hj Hq. apply (H (S j)); [lia|exact Hq]. }
  assert (Main : (exists r', nth_error (accept_loop (j_accept_bi lossy) rs) i = Some (Some (q, r'))) <-> Forall mild (firstn (S i) qs)).
  { rewrite Front. split.
    - intros (r' & H). apply (accept_loop_nth _ rs i r q r' Hr) in H. destruct H as [H1 H2]. intros j qj Hj Hqj.
      destruct (G j qj Hqj) as (rj & Hrj & Aj). apply (Res qj rj Aj). destruct (Nat.eq_dec j i) as [->|Nj].
      + assert (rj = r) as -> by congruence. eauto.
      + apply (H2 j rj); [lia|exact Hrj].
    - intros H. assert (M : mild q) by (apply (H i); [lia|exact Hq]).
      destruct (asks_read q bs r [] A M) as (r' & E1 & _); [rewrite app_nil_r; exact C|]. exists r'.
      apply (accept_loop_nth _ rs i r q r' Hr). split; [exact E1|]. intros j rj Hj Hrj.
      destruct (Len j rj Hrj) as (qj & Hqj & Aj). apply (Res qj rj Aj). apply (H j); [lia|exact Hqj]. }
  split; [exact Main|]. intros NM.
  destruct (nth_error (accept_loop (j_accept_bi lossy) rs) i) as [[[a r']|]|] eqn:K; [| reflexivity|].
  - exfalso. apply NM. apply Main. pose proof K as K'. apply (accept_loop_nth _ rs i r a r' Hr) in K'. destruct K' as [K1 _].
    assert (M : mild q) by (apply (Res q r); [exists bs; auto|eauto]).
    destruct (asks_read q bs r [] A M) as (r2 & E2 & _); [rewrite app_nil_r; exact C|]. rewrite E2 in K1. injection K1 as <- <-. exists r2. reflexivity.
  - exfalso. assert (L : forall B (acc : js B) l, length (accept_loop acc l) = length l).
    { intros B acc. induction l as [|x l IH]; [reflexivity|]. cbn [accept_loop]. destruct (acc x) as [[]]; rewrite ?map_length; cbn; auto. }
    apply nth_error_None in K. rewrite L in K. apply nth_error_None in K. congruence.
Qed.
End Text.

(** ** Media frames *)
Lemma set_timestamp_is t : safe t -> set_timestamp (Z.of_N t) = set_vint53 t.
Proof.
  intros H. unfold set_timestamp. destruct (Z.of_N t <=? 63)%Z eqn:E; [|rewrite N2Z.id; reflexivity].
  unfold set_vint53. change (2 ^ 6 - 1) with 63. destruct (t <=? 63) eqn:E2; [|lia].
  replace (Z.to_N (Z.of_N t mod 256)) with t; [reflexivity|]. rewrite Z.mod_small by lia. lia.
Qed.
Lemma media_from_js data t : safe t -> exists bs, js_encode_frame data (Z.of_N t) = Some bs /\
  forall index, media_decode index bs = Some (MFrame (t * 1000) (Nat.eqb index 0) data).
Proof.
  intros H. destruct (set53 t H) as (bs & E & V). exists (bs ++ data). unfold js_encode_frame. rewrite set_timestamp_is, E by exact H.
  split; [reflexivity|]. intros index. unfold media_decode. rewrite (is_varint_says _ _ V). reflexivity.
Qed.

Lemma vint_read round53 v p rest : is_varint v p ->
  exists big, get_vint53 round53 (p ++ rest) = Some (if big : bool then round53 v else v, rest) /\ (big = false -> safe v).
Proof.
  intros (k & Hk & F). pose proof F as (Hl & Hv & Hb). destruct p as [|b l].
  { exfalso. cbn in Hl. assert (k = 0 \/ k = 1 \/ k = 2 \/ k = 3) as [->|[->|[->| ->]]] by lia; cbn in Hl; lia. }
  unfold get_vint53. cbn [app]. rewrite size_bits, <- (varint_form_first k v b l Hk F).
  assert (Sz : N.shiftl 1 k = 2 ^ k) by (rewrite N.shiftl_mul_pow2; lia). rewrite Sz.
  change (b :: l ++ rest) with ((b :: l) ++ rest).
  assert (T : take (2 ^ k) ((b :: l) ++ rest) = b :: l) by (rewrite <- Hl; fold (len (b :: l)); rewrite take_app_l by lia; apply take_all; lia).
  assert (D : drop (2 ^ k) ((b :: l) ++ rest) = rest) by (rewrite <- Hl; fold (len (b :: l)); apply drop_len_app).
  rewrite T, D. destruct (len ((b :: l) ++ rest) <? 2 ^ k) eqn:L; [rewrite len_app in L; unfold len in L; lia|].
  assert (k = 0 \/ k = 1 \/ k = 2 \/ k = 3) as [->|[->|[->| ->]]] by lia.
  - exists false. split; [|]. 2: { intros _. change (2 ^ (8 * 2 ^ 0 - 2)) with 64 in Hv. unfold safe. change (2 ^ 53) with 9007199254740992. lia. }
    cbn [N.pow]. rewrite <- (land_form 0 v (b :: l) Hk F). reflexivity.
  - exists false. split; [|]. 2: { intros _. change (2 ^ (8 * 2 ^ 1 - 2)) with 16384 in Hv. unfold safe. change (2 ^ 53) with 9007199254740992. lia. }
    change (2 ^ 1 =? 1) with false. change (2 ^ 1 =? 2) with true. cbv iota. rewrite (int16_form v (b :: l) F). reflexivity.
  - exists false. split; [|]. 2: { intros _. change (2 ^ (8 * 2 ^ 2 - 2)) with 1073741824 in Hv. unfold safe. change (2 ^ 53) with 9007199254740992. lia. }
    change (2 ^ 2 =? 1) with false. change (2 ^ 2 =? 2) with false. change (2 ^ 2 =? 4) with true. cbv iota.
    pose proof (land_form 2 v (b :: l) Hk F) as K. change (N.ones (8 * 2 ^ 2 - 2)) with 0x3fffffff in K. rewrite K. reflexivity.
  - exists true. split; [|discriminate]. change (2 ^ 3 =? 1) with false. change (2 ^ 3 =? 2) with false. change (2 ^ 3 =? 4) with false. cbv iota.
    pose proof (land_form 3 v (b :: l) Hk F) as K. change (N.ones (8 * 2 ^ 3 - 2)) with 0x3fffffffffffffff in K. rewrite K. reflexivity.
Qed.

Lemma media_to_js round53 ts h data : ieee_rounding round53 -> media_header ts = Val h -> ts / 1000 < 2 ^ 64 ->
  exists v, js_decode_frame round53 (h ++ data) = Some (v, data) /\ (ts / 1000 <= 2 ^ 53 -> v = ts / 1000) /\
    (2 ^ 53 <= ts / 1000 -> exists k, v = 2 * k).
Proof.
  intros [R1 R2] E L. unfold media_header in E. rewrite N.mod_small in E by exact L.
  destruct (u64_encode (ts / 1000)) as [ps|] eqn:Eu; [|discriminate]. injection E as <-.
  assert (V : is_varint (ts / 1000) (wire ps)).
  { destruct (varint_encode_form _ (u64_62 _ _ Eu)) as (ps' & k & E' & Hk & _ & F & _). assert (ps' = ps) as -> by congruence. exists k. auto. }
  destruct (vint_read round53 _ _ data V) as ([|] & G & S); eexists; (split; [exact G|]).
  - split; [apply R1|apply R2].
  - split; [reflexivity|]. intros K. specialize (S eq_refl). unfold safe in S. exfalso. apply (N.lt_irrefl (2 ^ 53)). eapply N.le_lt_trans; eassumption.
Qed.

(** ** Positions *)
Lemma position_misread text : (exists rest, text = x7b :: rest) ->
  match place_decode text with None => True | Some p => 0x7b000000 <= pc_x p < 0x7c000000 end.
Proof.
  intros (rest & ->). unfold place_decode. destruct (Nat.eqb (length (x7b :: rest)) 12) eqn:E; [|exact I].
  apply Nat.eqb_eq in E. destruct rest as [|b1 [|b2 [|b3 rest]]]; try discriminate. cbn [pc_x firstn].
  unfold of_be32. pose proof (n_of_lt b1). pose proof (n_of_lt b2). pose proof (n_of_lt b3).
  cbn [fold_left]. change (n_of x7b) with 123. lia.
Qed.
