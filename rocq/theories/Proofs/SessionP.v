(** Handshake and dispatch. *)
From Coq Require Import NArith ZArith List Lia Bool.
From Coq Require Import Init.Byte Strings.Byte.
From Coq Require Import ZifyBool ZifyNat ZifyN.
From Verif.Model Require Import Base Coding Message ErrorCode Stream Frame Transfer Session.
From Verif.Spec Require Import CodingSpec MessageSpec StreamSpec SessionSpec.
From Verif.Proofs Require Import BaseP CodingP MessageP CodingTop StreamP TransferTop.
Import ListNotations.
Open Scope N_scope.

Lemma starts_decode v bs rest : starts_with v bs rest <-> u64_decode bs = DOk v rest.
Proof.
  destruct (varint_decode_exact bs) as (H & _). rewrite H. unfold starts_with.
  split; intros (p & A & B); eauto.
Qed.

Lemma starts_unique v1 r1 v2 r2 bs : starts_with v1 bs r1 -> starts_with v2 bs r2 -> v1 = v2 /\ r1 = r2.
Proof. rewrite !starts_decode. intros -> [= -> ->]. auto. Qed.

Lemma starts_or_not bs : (exists v rest, starts_with v bs rest) \/ no_integer bs.
Proof.
  destruct (u64_decode bs) as [v rest|e|] eqn:E.
  - left. exists v, rest. apply starts_decode. exact E.
  - right. intros v rest H. apply starts_decode in H. congruence.
  - right. intros v rest H. apply starts_decode in H. congruence.
Qed.

Lemma no_integer_decode bs : no_integer bs -> u64_decode bs = DErr Short.
Proof.
  intros H. destruct (varint_decode_exact bs) as (_ & _ & H1 & H2).
  destruct (u64_decode bs) as [v rest|e|] eqn:E; [|rewrite (H1 e eq_refl); reflexivity|congruence].
  exfalso. apply (H v rest). apply starts_decode. exact E.
Qed.

(** ** Dispatch *)
Lemma control_cases bs v rest : u64_decode bs = DOk v rest ->
  control_type_decode bs =
    if v =? 0 then DOk CSession rest else if v =? 1 then DOk CAnnounce rest
    else if v =? 2 then DOk CSubscribe rest else DErr InvalidValue.
Proof.
  intros E. unfold control_type_decode. rewrite E. cbn [dbind].
  destruct v as [|[[p|p|]|[p|p|]|]]; reflexivity.
Qed.

Lemma control_short bs : u64_decode bs = DErr Short -> control_type_decode bs = DErr Short.
Proof. intros E. unfold control_type_decode. rewrite E. reflexivity. Qed.

Lemma data_cases bs v rest : u64_decode bs = DOk v rest ->
  data_type_decode bs = if v =? 0 then DOk DGroup rest else DErr InvalidValue.
Proof. intros E. unfold data_type_decode. rewrite E. cbn [dbind]. destruct v; reflexivity. Qed.

Lemma data_short bs : u64_decode bs = DErr Short -> data_type_decode bs = DErr Short.
Proof. intros E. unfold data_type_decode. rewrite E. reflexivity. Qed.

Lemma control_exact r :
  (forall rest, starts_with 1 (content r) rest <->
     exists r', run_control r = ToAnnounce r' /\ content r' = rest /\ ends r' = ends r) /\
  (forall rest, starts_with 2 (content r) rest <->
     exists r', run_control r = ToSubscribe r' /\ content r' = rest /\ ends r' = ends r) /\
  (forall rest, starts_with 0 (content r) rest -> run_control r = Refused (UnexpectedStream CSession) 10) /\
  (forall v rest, 2 < v -> starts_with v (content r) rest -> run_control r = Refused (Decode InvalidValue) 0) /\
  (no_integer (content r) -> run_control r =
     match ends r with Fin => Refused (Decode Short) 0 | Reset => Refused WebTransport 0 | Open => Undecided end) /\
  run_control r <> DispatchFuel /\ (forall r', run_control r <> ToGroup r').
Proof.
  unfold run_control. pose proof (reader_decode_flat control_type_decode r good_control) as H.
  destruct (reader_decode control_type_decode r) as [a r']. destruct H as (H & HE & _).
  unfold flat_decode in H. destruct (starts_or_not (content r)) as [(v & rest & S)|N].
  - pose proof (proj1 (starts_decode _ _ _) S) as D. rewrite (control_cases _ _ _ D) in H.
    destruct (v =? 0) eqn:E0; [|destruct (v =? 1) eqn:E1; [|destruct (v =? 2) eqn:E2]].
    all: injection H as -> HC.
    all: repeat split; try discriminate; auto.
    all: try (intros S'; pose proof (starts_unique _ _ _ _ _ S S') as [? ?]; subst; try lia;
              eexists; repeat split; eauto; fail).
    all: try (intros (r2 & [= <-] & <- & _); rewrite HC; replace v with 1 in S by lia; exact S).
    all: try (intros (r2 & [= <-] & <- & _); rewrite HC; replace v with 2 in S by lia; exact S).
    all: try (intros (r2 & [=] & _)).
    all: try (intros rest' S'; pose proof (starts_unique _ _ _ _ _ S S') as [? ?]; subst; discriminate).
    all: try (intros v' rest' L S'; pose proof (starts_unique _ _ _ _ _ S S') as [? ?]; subst;
              try lia; reflexivity).
    all: try (intros N; exfalso; exact (N _ _ S)).
  - pose proof (no_integer_decode _ N) as D. rewrite (control_short _ D) in H. injection H as -> HC.
    repeat split.
    1,3: intros S; exfalso; exact (N _ _ S).
    1,2: intros (r2 & E & _); destruct (ends r); discriminate.
    1: intros rest S; exfalso; exact (N _ _ S).
    1: intros v rest _ S; exfalso; exact (N _ _ S).
    1: intros _; destruct (ends r); reflexivity.
    1: destruct (ends r); discriminate.
    intros r2; destruct (ends r); discriminate.
Qed.

Lemma data_exact r :
  (forall rest, starts_with 0 (content r) rest <->
     exists r', run_data r = ToGroup r' /\ content r' = rest /\ ends r' = ends r) /\
  (forall v rest, v <> 0 -> starts_with v (content r) rest -> run_data r = Refused (Decode InvalidValue) 0) /\
  (no_integer (content r) -> run_data r =
     match ends r with Fin => Refused (Decode Short) 0 | Reset => Refused WebTransport 0 | Open => Undecided end) /\
  run_data r <> DispatchFuel /\ (forall r', run_data r <> ToAnnounce r' /\ run_data r <> ToSubscribe r').
Proof.
  unfold run_data. pose proof (reader_decode_flat data_type_decode r good_data) as H.
  destruct (reader_decode data_type_decode r) as [a r']. destruct H as (H & HE & _).
  unfold flat_decode in H. destruct (starts_or_not (content r)) as [(v & rest & S)|N].
  - pose proof (proj1 (starts_decode _ _ _) S) as D. rewrite (data_cases _ _ _ D) in H.
    destruct (v =? 0) eqn:E0.
    all: injection H as -> HC.
    + replace v with 0 in * by lia. repeat split; try discriminate; auto.
      * intros S'; pose proof (starts_unique _ _ _ _ _ S S') as [? ?]; subst. eauto.
      * intros (r2 & [= <-] & <- & _). rewrite HC. exact S.
      * intros v' rest' L S'; pose proof (starts_unique _ _ _ _ _ S S') as [? ?]; subst. congruence.
      * intros N; exfalso; exact (N _ _ S).
    + repeat split; try discriminate; auto.
      * intros S'; pose proof (starts_unique _ _ _ _ _ S S') as [? ?]; subst. discriminate.
      * intros (r2 & [=] & _).
      * intros N; exfalso; exact (N _ _ S).
  - pose proof (no_integer_decode _ N) as D. rewrite (data_short _ D) in H. injection H as -> HC.
    repeat split.
    + intros S; exfalso; exact (N _ _ S).
    + intros (r2 & E & _); destruct (ends r); discriminate.
    + intros v rest _ S; exfalso; exact (N _ _ S).
    + intros _; destruct (ends r); reflexivity.
    + destruct (ends r); discriminate.
    + destruct (ends r); discriminate.
    + destruct (ends r); discriminate.
Qed.

(** ** The session stream *)
Lemma run_session_spec : forall fuel r, no_empty_piece r -> (length (content r) < fuel)%nat ->
  run_session fuel r = match ends r with Fin => AErr Cancel | Reset => AErr WebTransport | Open => APending end.
Proof.
  induction fuel as [|fuel IH]; intros r NE L; [lia|]. cbn [run_session].
  pose proof (reader_maybe_flat subscribe_ok_decode r good_u8 NE) as H.
  destruct (reader_decode_maybe subscribe_ok_decode r) as [a r']. destruct H as (H & HE & HN).
  unfold flat_maybe, flat_decode, subscribe_ok_decode in H. destruct (content r) as [|b bs] eqn:C.
  - injection H as -> _. destruct (ends r); reflexivity.
  - cbn [u8_decode] in H. injection H as -> HC. cbn [length] in L.
    rewrite IH, HE; auto. rewrite HC. lia.
Qed.

Lemma session_stream_spec r : no_empty_piece r ->
  session_stream r = match ends r with Fin => AErr Cancel | Reset => AErr WebTransport | Open => APending end.
Proof. intros NE. unfold session_stream. rewrite available_content. apply run_session_spec; auto. Qed.

(** ** Handshake *)
Lemma version_ours : version_current = our_version. Proof. reflexivity. Qed.

Definition request : bytes := [x00; x01; xc0; x00; x00; x00; xff; x0d; xad; x00; x00].
Definition reply : bytes := [xc0; x00; x00; x00; xff; x0d; xad; x00; x00].
Lemma request_is : request_bytes [our_version] request.
Proof. do 2 eexists. split; [reflexivity|]. split; [reflexivity|]. reflexivity. Qed.
Lemma reply_is : reply_bytes our_version reply.
Proof. eexists. split; reflexivity. Qed.

(** A message sent within a handshake. *)
Lemma send_msg_spec {A} (enc : encoder A) m ps r s k : enc m = Val ps ->
  (exists s', send_msg enc m r s k = k s' /\ sd_sent s' = sd_sent s ++ wire ps /\
     (lively (sd_sched s) -> (length (wire ps) <= length (sd_sched s))%nat ->
        lively (sd_sched s') /\ (length (sd_sched s) <= length (sd_sched s') + length (wire ps))%nat)) \/
  (exists a s', send_msg enc m r s k = Shaken (Val a) r s' /\ a <> AOk tt /\ a <> AFuel /\
     ~ (lively (sd_sched s) /\ (length (wire ps) <= length (sd_sched s))%nat) /\
     exists p q, wire ps = p ++ q /\ sd_sent s' = sd_sent s ++ p).
Proof.
  intros E. unfold send_msg, writer_encode. rewrite E.
  pose proof (push_spec (sd_sched s) (wire ps) (sd_sent s)) as P.
  destruct (push (wire ps) (sd_sent s) (sd_sched s)) as [a s']. destruct P as (p & q & Eb & Es & Ho & Hf & Hl).
  destruct a as [[]|e| |].
  - left. exists s'. split; [reflexivity|]. rewrite (Ho eq_refl), app_nil_r in Eb. subst p. split; [exact Es|].
    intros L1 L2. destruct (Hl L1 L2) as (_ & D2 & D3). auto.
  - right. exists (AErr e), s'. split; [reflexivity|]. repeat split; try discriminate; eauto.
    intros [L1 L2]. destruct (Hl L1 L2) as (D & _). discriminate.
  - right. exists APending, s'. split; [reflexivity|]. repeat split; try discriminate; eauto.
    intros [L1 L2]. destruct (Hl L1 L2) as (D & _). discriminate.
  - congruence.
Qed.

Lemma recv_msg_spec {A} (dec : decoder A) r s k : good dec ->
  match dec (content r) with
  | DOk m rest => exists r', recv_msg dec r s k = k m r' /\ content r' = rest /\ ends r' = ends r
  | DErr e => exists a r', recv_msg dec r s k = Shaken (Val a) r' s /\ a <> AOk tt /\ a <> AFuel
  | DFuel => False
  end.
Proof.
  intros G. unfold recv_msg. pose proof (reader_decode_flat dec r G) as H.
  destruct (reader_decode dec r) as [a r']. destruct H as (H & HE & _). unfold flat_decode in H.
  destruct (dec (content r)) as [m rest|e|] eqn:D.
  - injection H as -> HC. eauto.
  - exists (failed a), r'.
    assert (K : (exists x, a = AErr x) \/ a = APending).
    { destruct e; try (injection H as -> _; eauto; fail). destruct (ends r); injection H as -> _; eauto. }
    destruct K as [(x & ->)| ->]; repeat split; cbn; discriminate.
  - exact (g_total _ G _ D).
Qed.

Lemma in_versions vs : existsb (N.eqb version_current) vs = true <-> In our_version vs.
Proof.
  rewrite existsb_exists, version_ours. split.
  - intros (x & Hx & E). replace our_version with x by (apply N.eqb_eq in E; congruence). exact Hx.
  - intros H. exists our_version. split; [exact H|apply N.eqb_refl].
Qed.

Lemma offers_unique w vs1 vs2 bs r1 r2 : offers w vs1 bs r1 -> offers w vs2 bs r2 -> vs1 = vs2 /\ r1 = r2.
Proof.
  intros (e1 & x1 & S1 & D1) (e2 & x2 & S2 & D2).
  destruct (starts_unique _ _ _ _ _ S1 S2) as [_ ->]. rewrite D1 in D2. injection D2. auto.
Qed.

Lemma reply_enc : exists ps, server_setup_encode (ServerSetup version_current []) = Val ps /\ wire ps = reply.
Proof. eexists. split; reflexivity. Qed.

Lemma accept_spec w r s : exists a r' s', accept w r s = Shaken (Val a) r' s' /\ a <> AFuel /\
  (a = AOk tt -> exists vs rest, offers w vs (content r) rest /\ In our_version vs /\
     content r' = rest /\ sd_sent s' = sd_sent s ++ reply) /\
  (forall vs rest, offers w vs (content r) rest -> In our_version vs ->
     lively (sd_sched s) -> (9 <= length (sd_sched s))%nat -> a = AOk tt) /\
  (forall vs rest, offers w vs (content r) rest -> ~ In our_version vs ->
     a = AErr (Version vs [our_version])) /\
  (forall rest, starts_with 1 (content r) rest -> a = AErr (UnexpectedStream CAnnounce)) /\
  (forall rest, starts_with 2 (content r) rest -> a = AErr (UnexpectedStream CSubscribe)) /\
  ((forall vs rest, offers w vs (content r) rest -> ~ In our_version vs) -> sd_sent s' = sd_sent s).
Proof.
  unfold accept.
  match goal with |- context [recv_msg control_type_decode r s ?k] =>
    pose proof (recv_msg_spec control_type_decode r s k good_control) as H end.
  destruct (starts_or_not (content r)) as [(v & rest & S)|N].
  2: { rewrite (control_short _ (no_integer_decode _ N)) in H. destruct H as (a & r' & -> & A1 & A2).
       exists a, r', s. repeat split; auto; try congruence.
       all: try (intros; exfalso; eapply N; eauto; fail).
       all: intros vs rest (e & x & S & _); exfalso; eapply N; eauto. }
  pose proof (proj1 (starts_decode _ _ _) S) as D. rewrite (control_cases _ _ _ D) in H.
  destruct (v =? 0) eqn:E0; [|destruct (v =? 1) eqn:E1; [|destruct (v =? 2) eqn:E2]].
  - (* session *)
    destruct H as (r1 & -> & C1 & _). cbn [control_type_eqb negb]. unfold accept_setup.
    replace v with 0 in * by lia.
    match goal with |- context [recv_msg (client_setup_decode w) r1 s ?k] =>
      pose proof (recv_msg_spec (client_setup_decode w) r1 s k (good_client_setup w)) as H end.
    rewrite C1 in H. destruct (client_setup_decode w rest) as [[vs ext] rest2|e|] eqn:DC; [|..|contradiction].
    + assert (OF : offers w vs (content r) rest2) by (exists ext, rest; split; [exact S|exact DC]).
      destruct H as (r2 & -> & C2 & _). cbn [cs_versions].
      destruct (existsb (N.eqb version_current) vs) eqn:EX; cbn [negb].
      * apply in_versions in EX. destruct reply_enc as (ps & EP & EW).
        match goal with |- context [send_msg _ _ r2 s ?k] =>
          destruct (send_msg_spec server_setup_encode (ServerSetup version_current []) ps r2 s k EP)
            as [(s' & -> & ES & EL)|(a & s' & -> & A1 & A2 & A3 & A4)] end.
        -- exists (AOk tt), r2, s'. rewrite EW in ES. repeat split; try discriminate.
           ++ exists vs, rest2. auto.
           ++ intros vs' rest' O' HN. destruct (offers_unique _ _ _ _ _ _ OF O') as [<- <-]. contradiction.
           ++ intros rest' S'. destruct (starts_unique _ _ _ _ _ S S') as [? _]. discriminate.
           ++ intros rest' S'. destruct (starts_unique _ _ _ _ _ S S') as [? _]. discriminate.
           ++ intros HN. exfalso. exact (HN _ _ OF EX).
        -- exists a, r2, s'. repeat split; auto; try congruence.
           ++ intros vs' rest' _ _ L1 L2. exfalso. apply A3. rewrite EW. split; [exact L1|exact L2].
           ++ intros vs' rest' O' HN. destruct (offers_unique _ _ _ _ _ _ OF O') as [<- <-]. contradiction.
           ++ intros rest' S'. destruct (starts_unique _ _ _ _ _ S S') as [? _]. discriminate.
           ++ intros rest' S'. destruct (starts_unique _ _ _ _ _ S S') as [? _]. discriminate.
           ++ intros HN. exfalso. exact (HN _ _ OF EX).
      * assert (NI : ~ In our_version vs) by (intros I; apply in_versions in I; congruence).
        do 3 eexists. split; [reflexivity|]. repeat split; try discriminate.
        -- intros vs' rest' O' HI. destruct (offers_unique _ _ _ _ _ _ OF O') as [<- <-]. contradiction.
        -- intros vs' rest' O' _. destruct (offers_unique _ _ _ _ _ _ OF O') as [<- <-]. reflexivity.
        -- intros rest' S'. destruct (starts_unique _ _ _ _ _ S S') as [? _]. discriminate.
        -- intros rest' S'. destruct (starts_unique _ _ _ _ _ S S') as [? _]. discriminate.
    + destruct H as (a & r' & -> & A1 & A2). exists a, r', s.
      assert (NO : forall vs x, ~ offers w vs (content r) x).
      { intros vs x (e1 & x1 & S1 & D1). destruct (starts_unique _ _ _ _ _ S S1) as [_ <-].
        cbn [decode_kind] in D1. congruence. }
      repeat split; auto; try congruence.
      all: try (intros vs' rest' O'; exfalso; exact (NO _ _ O')).
      all: intros rest' S'; destruct (starts_unique _ _ _ _ _ S S') as [? _]; discriminate.
  - destruct H as (r1 & -> & C1 & _). cbn [control_type_eqb negb]. replace v with 1 in * by lia.
    do 3 eexists. split; [reflexivity|]. repeat split; try discriminate.
    all: try (intros vs' rest' (? & ? & S' & _); destruct (starts_unique _ _ _ _ _ S S') as [? _]; discriminate).
    intros rest' S'. destruct (starts_unique _ _ _ _ _ S S') as [? _]. discriminate.
  - destruct H as (r1 & -> & C1 & _). cbn [control_type_eqb negb]. replace v with 2 in * by lia.
    do 3 eexists. split; [reflexivity|]. repeat split; try discriminate.
    all: try (intros vs' rest' (? & ? & S' & _); destruct (starts_unique _ _ _ _ _ S S') as [? _]; discriminate).
    intros rest' S'. destruct (starts_unique _ _ _ _ _ S S') as [? _]. discriminate.
  - destruct H as (a & r1 & -> & A1 & A2). exists a, r1, s. repeat split; auto; try congruence.
    all: try (intros vs' rest' (? & ? & S' & _); destruct (starts_unique _ _ _ _ _ S S') as [? _]; subst; discriminate).
    all: intros rest' S'; destruct (starts_unique _ _ _ _ _ S S') as [? _]; subst; discriminate.
Qed.

Lemma connect_spec w r s : exists a r' s', connect w r s = Shaken (Val a) r' s' /\ a <> AFuel /\
  (a = AOk tt -> sd_sent s' = sd_sent s ++ request /\ exists v, replies w v (content r) (content r')) /\
  (forall v rest, replies w v (content r) rest -> lively (sd_sched s) -> (11 <= length (sd_sched s))%nat -> a = AOk tt) /\
  (lively (sd_sched s) -> (11 <= length (sd_sched s))%nat -> sd_sent s' = sd_sent s ++ request) /\
  (exists p q, request = p ++ q /\ sd_sent s' = sd_sent s ++ p).
Proof.
  unfold connect.
  assert (E1 : exists p1, control_type_encode CSession = Val p1 /\ wire p1 = [x00]) by (eexists; split; reflexivity).
  assert (E2 : exists p2, client_setup_encode (ClientSetup [version_current] []) = Val p2 /\
    wire p2 = [x01; xc0; x00; x00; x00; xff; x0d; xad; x00; x00]) by (eexists; split; reflexivity).
  destruct E1 as (p1 & E1 & W1). destruct E2 as (p2 & E2 & W2).
  match goal with |- context [send_msg control_type_encode CSession r s ?k] =>
    destruct (send_msg_spec control_type_encode CSession p1 r s k E1)
      as [(s1 & -> & S1 & L1)|(a & s1 & -> & A1 & A2 & A3 & A4)] end.
  2: { exists a, r, s1. rewrite W1 in A3, A4. repeat split; auto; try congruence.
       - intros v rest _ HL HN. exfalso. apply A3. cbn [length]. split; [exact HL|lia].
       - intros HL HN. exfalso. apply A3. cbn [length]. split; [exact HL|lia].
       - destruct A4 as (p & q & B1 & B2). exists p, (q ++ tl request). rewrite app_assoc, <- B1. auto. }
  rewrite W1 in *. unfold connect_setup.
  match goal with |- context [send_msg client_setup_encode ?m r s1 ?k] =>
    destruct (send_msg_spec client_setup_encode m p2 r s1 k E2)
      as [(s2 & -> & S2 & L2)|(a & s2 & -> & A1 & A2 & A3 & A4)] end.
  2: { exists a, r, s2. rewrite W2 in A3, A4. repeat split; auto; try congruence.
       - intros v rest _ HL HN. exfalso. apply A3. cbn [length] in L1. destruct (L1 HL ltac:(lia)) as (B1 & B2).
         cbn [length]. split; [exact B1|lia].
       - intros HL HN. exfalso. apply A3. cbn [length] in L1. destruct (L1 HL ltac:(lia)) as (B1 & B2).
         cbn [length]. split; [exact B1|lia].
       - destruct A4 as (p & q & B1 & B2). exists ([x00] ++ p), q. rewrite <- app_assoc, <- B1. split; [reflexivity|].
         rewrite B2, S1, <- app_assoc. reflexivity. }
  rewrite W2, S1, <- app_assoc in S2. change ([x00] ++ _) with request in S2.
  match goal with |- context [recv_msg (server_setup_decode w) r s2 ?k] =>
    pose proof (recv_msg_spec (server_setup_decode w) r s2 k (good_server_setup w)) as H end.
  destruct (server_setup_decode w (content r)) as [[v ext] rest|e|] eqn:D; [|..|contradiction].
  - destruct H as (r' & -> & C & _). exists (AOk tt), r', s2. repeat split; try discriminate; auto.
    + exists v, ext. rewrite C. exact D.
    + exists request, []. rewrite app_nil_r. auto.
  - destruct H as (a & r' & -> & A1 & A2). exists a, r', s2. repeat split; auto; try congruence.
    + intros v rest (ext & D'). cbn [decode_kind] in D'. congruence.
    + exists request, []. rewrite app_nil_r. auto.
Qed.

Lemma request_offers w rest : offers w [our_version] (request ++ rest) rest.
Proof.
  exists [], (skipn 1 request ++ rest). split.
  - apply starts_decode. reflexivity.
  - destruct (rt_client_setup w (ClientSetup [our_version] [])) as (ps & E & D).
    { cbn. repeat split; try constructor; try reflexivity; try constructor. }
    assert (W : wire ps = skipn 1 request).
    { assert (X : client_setup_encode (ClientSetup [our_version] []) = Val ps) by exact E.
      assert (Y : match client_setup_encode (ClientSetup [our_version] []) with Val p => wire p | Panic => [] end
        = skipn 1 request) by reflexivity. rewrite X in Y. exact Y. }
    rewrite <- W. exact (D rest).
Qed.

Lemma reply_replies w rest : replies w our_version (reply ++ rest) rest.
Proof.
  exists []. destruct (rt_server_setup w (ServerSetup our_version [])) as (ps & E & D).
  { cbn. repeat split; try constructor; try reflexivity. }
  assert (W : wire ps = reply).
  { assert (Y : match server_setup_encode (ServerSetup our_version []) with Val p => wire p | Panic => [] end
      = reply) by reflexivity. rewrite E in Y. exact Y. }
  rewrite <- W. exact (D rest).
Qed.

Lemma handshake_pair w rc sc rs ss :
  sd_sent sc = [] -> sd_sent ss = [] -> lively (sd_sched sc) -> lively (sd_sched ss) ->
  (11 <= length (sd_sched sc))%nat -> (9 <= length (sd_sched ss))%nat ->
  carries (sk_send (connect w rc sc)) rs -> carries (sk_send (accept w rs ss)) rc ->
  sk_result (connect w rc sc) = Val (AOk tt) /\ sk_result (accept w rs ss) = Val (AOk tt) /\
  replies w our_version (content rc) (content (sk_reader (connect w rc sc))) /\
  content (sk_reader (connect w rc sc)) = [] /\ content (sk_reader (accept w rs ss)) = [].
Proof.
  intros B1 B2 L1 L2 N1 N2 (C1 & _) (C2 & _).
  destruct (connect_spec w rc sc) as (a & r1 & s1 & E & _ & A1 & A2 & A3 & _). rewrite E in *. cbn [sk_send sk_result sk_reader] in *.
  rewrite (A3 L1 N1), B1 in C1. cbn [app] in C1.
  destruct (accept_spec w rs ss) as (b & r2 & s2 & F & _ & D1 & D2 & _ ). rewrite F in *. cbn [sk_send sk_result sk_reader] in *.
  assert (O : offers w [our_version] (content rs) []).
  { rewrite C1. pose proof (request_offers w []) as X. rewrite app_nil_r in X. exact X. }
  assert (b = AOk tt) by (eapply D2; eauto; cbn; auto). subst b.
  destruct (D1 eq_refl) as (vs & rest & O' & _ & R & S). rewrite S, B2 in C2. cbn [app] in C2.
  destruct (offers_unique _ _ _ _ _ _ O O') as [_ <-].
  pose proof (reply_replies w []) as P. rewrite app_nil_r, <- C2 in P.
  assert (a = AOk tt) by (eapply A2; eauto). subst a. destruct (A1 eq_refl) as (_ & v & ext & DV).
  destruct P as (ext' & DP). rewrite DP in DV. injection DV as <- <- HR. rewrite <- HR.
  repeat split; auto. exists ext'. exact DP.
Qed.

Lemma server_exact w r s : exists a r' s', accept w r s = Shaken (Val a) r' s' /\ a <> AFuel /\
  (a = AOk tt -> exists vs rest, offers w vs (content r) rest /\ In our_version vs /\
     content r' = rest /\ exists answer, reply_bytes our_version answer /\ sd_sent s' = sd_sent s ++ answer) /\
  (forall vs rest, offers w vs (content r) rest -> In our_version vs ->
     lively (sd_sched s) -> (9 <= length (sd_sched s))%nat -> a = AOk tt) /\
  (forall vs rest, offers w vs (content r) rest -> ~ In our_version vs ->
     a = AErr (Version vs [our_version])) /\
  (forall rest, starts_with 1 (content r) rest -> a = AErr (UnexpectedStream CAnnounce)) /\
  (forall rest, starts_with 2 (content r) rest -> a = AErr (UnexpectedStream CSubscribe)) /\
  ((forall vs rest, offers w vs (content r) rest -> ~ In our_version vs) -> sd_sent s' = sd_sent s).
Proof.
  destruct (accept_spec w r s) as (a & r' & s' & E & F & A & B). exists a, r', s'.
  split; [exact E|]. split; [exact F|]. split; [|exact B].
  intros H. destruct (A H) as (vs & rest & O & I & C & S). exists vs, rest. repeat split; auto.
  exists reply. split; [exact reply_is|exact S].
Qed.

Lemma client_exact w r s : exists a r' s', connect w r s = Shaken (Val a) r' s' /\ a <> AFuel /\
  (a = AOk tt -> exists v req, replies w v (content r) (content r') /\
     request_bytes [our_version] req /\ sd_sent s' = sd_sent s ++ req) /\
  (forall v rest, replies w v (content r) rest -> lively (sd_sched s) -> (11 <= length (sd_sched s))%nat ->
     a = AOk tt).
Proof.
  destruct (connect_spec w r s) as (a & r' & s' & E & F & A & B & _). exists a, r', s'.
  split; [exact E|]. split; [exact F|]. split; [|exact B].
  intros H. destruct (A H) as (S & v & R). exists v, request. split; [exact R|]. split; [exact request_is|exact S].
Qed.
