(** C158-C165: the JavaScript library (js/moq, js/hang) and the Rust library on the two ends of a connection. *)
From Coq Require Import NArith ZArith List Bool Lia.
From Coq Require Import Init.Byte Strings.Byte.
From Verif.Model Require Import Base Coding Message ErrorCode Stream Frame Transfer Session Media Location JsWire.
From Verif.Spec Require Import CodingSpec MessageSpec StreamSpec SessionSpec TransferSpec JsWireSpec.
From Verif.Proofs Require Import JsWireP JsHearP JsGroupP.
Import ListNotations.
Open Scope N_scope.

(** For the examples: text that is not UTF-8 becomes a question mark; "room" and "catalog.json". *)
Definition qm (b : bytes) : bytes := ["?"%byte].
Definition room : bytes := ["r"; "o"; "o"; "m"]%byte.
Definition catalog : bytes := ["c"; "a"; "t"; "a"; "l"; "o"; "g"; "."; "j"; "s"; "o"; "n"]%byte.
Lemma ascii_text l : forallb (fun b => Byte.to_N b <? 128) l = true -> is_text l.
Proof.
  induction l as [|b l IH]; intros H; [exists []; constructor|]. cbn in H. apply andb_prop in H. destruct H as [H1 H2].
  destruct (IH H2) as (cs & T). exists (Byte.to_N b :: cs). apply (utf8_cons (Byte.to_N b) cs [b] l); [|exact T].
  apply utf8_1; [apply N.ltb_lt, H1|reflexivity].
Qed.
Ltac text := apply ascii_text; reflexivity.
Ltac plainly := split; [intros x; discriminate|reflexivity].
Definition sub (priority : byte) : subscribe := Subscribe 3 room catalog priority.
Lemma sub_safe p : safe_subscribe (sub p).
Proof. split; [text|]. split; [text|]. split; plainly. Qed.
Definition bytes_of {A} (x : res (list put)) (k : bytes -> A) (d : A) : A := match x with Val ps => k (wire ps) | Panic => d end.

(** ** C158: messages from Rust to JavaScript *)
(** However the bytes are cut, a JavaScript endpoint reads what the Rust endpoint wrote, up to the very last byte of it. *)
Theorem C158_rust_to_js : forall lossy,
  hears (j_announce lossy) KAnnounce safe_announce announce_view /\
  hears (j_interest lossy) KAnnounceRequest (fun s => is_text s /\ plain_text s) (fun s => s) /\
  hears (j_subscribe lossy) KSubscribe (fun m => safe_subscribe m /\ Byte.to_N (sub_priority m) < 64) subscribe_view /\
  hears j_subscribe_ok KSubscribeOk (fun b => Byte.to_N b < 64) Byte.to_N /\
  hears j_group KGroup (fun g => safe (gh_sequence g)) (fun g => g) /\
  hears j_info KSessionInfo (fun b => safe (info_view b)) info_view /\
  hears j_client KClientSetup
    (fun m => safe (N.of_nat (length (cs_versions m))) /\ Forall safe (cs_versions m) /\ safe_extensions (cs_extensions m)) (fun m => m) /\
  hears j_server KServerSetup (fun m => safe (ss_version m) /\ safe_extensions (ss_extensions m)) (fun m => m).
Proof.
  intros lossy. exact (conj (hears_announce lossy) (conj (hears_interest lossy) (conj (hears_subscribe lossy)
    (conj hears_ok (conj hears_group (conj hears_info (conj hears_client hears_server))))))).
Qed.
Print Assumptions C158_rust_to_js.
Example C158_meets : encode_kind KSubscribe (sub x01) <> Panic /\ safe_subscribe (sub x01) /\ Byte.to_N (sub_priority (sub x01)) < 64 /\
  bytes_of (encode_kind KSubscribe (sub x01)) (fun bs =>
    fst (j_subscribe qm (Reader [] (Recv [take 2 bs; drop 2 bs; [x07]] Open)))) JFuel = JOk (JSubscribe 3 room catalog 1).
Proof. split; [discriminate|]. split; [apply sub_safe|]. split; reflexivity. Qed.

(** The conditions are exact.  For the priority of a subscription, and of its acceptance: *)
Theorem C158_priority_exact : forall lossy r rest,
  (forall m ps, encode_kind KSubscribe m = Val ps -> safe_subscribe m -> content r = wire ps ++ rest ->
     (gets (j_subscribe lossy) r (subscribe_view m) rest <-> Byte.to_N (sub_priority m) < 64)) /\
  (forall m ps, encode_kind KSubscribeOk m = Val ps -> content r = wire ps ++ rest ->
     (gets j_subscribe_ok r (Byte.to_N m) rest <-> Byte.to_N m < 64)).
Proof.
  intros lossy r rest. split; intros m ps.
  - exact (subscribe_exact lossy m ps r rest).
  - exact (ok_exact m ps r rest).
Qed.
Print Assumptions C158_priority_exact.

(** With a larger one and nothing behind it the JavaScript endpoint waits, for as long as the stream is open. *)
Theorem C158_waits : forall lossy r,
  (forall m ps, encode_kind KSubscribe m = Val ps -> safe_subscribe m -> 64 <= Byte.to_N (sub_priority m) -> content r = wire ps ->
     fst (j_subscribe lossy r) = match ends r with Open => JWait | _ => JThrow end) /\
  (forall m ps, encode_kind KSubscribeOk m = Val ps -> 64 <= Byte.to_N m -> content r = wire ps ->
     fst (j_subscribe_ok r) = match ends r with Open => JWait | _ => JThrow end).
Proof.
  intros lossy r. split; intros m ps.
  - exact (subscribe_stuck lossy m ps r).
  - exact (ok_stuck m ps r).
Qed.
Print Assumptions C158_waits.

(** For text and for numbers: *)
Theorem C158_text_exact : forall lossy p ps r rest, encode_kind KAnnounceRequest p = Val ps -> is_text p -> content r = wire ps ++ rest ->
  (gets (j_interest lossy) r p rest <-> plain_text p).
Proof. exact interest_exact. Qed.
Print Assumptions C158_text_exact.
Theorem C158_large : forall m ps r rest, encode_kind KGroup m = Val ps -> ~ safe (gh_sequence m) -> content r = wire ps ++ rest ->
  fst (j_group r) = JThrow.
Proof. exact group_large. Qed.
Print Assumptions C158_large.

(** So not every message is understood: the catalog is subscribed to with priority 100. *)
Theorem C158_subscribe_refuted : exists m ps r, wf 64 KSubscribe m /\ encode_kind KSubscribe m = Val ps /\ content r = wire ps /\
  ends r = Open /\ forall lossy, fst (j_subscribe lossy r) = JWait.
Proof.
  assert (H : exists ps, encode_kind KSubscribe (sub "d") = Val ps) by (eexists; reflexivity). destruct H as (ps & E).
  exists (sub "d"), ps, (Reader (wire ps) (Recv [] Open)). split.
  { split; [reflexivity|]. split; (split; [split; reflexivity|text]). }
  split; [exact E|]. split; [apply app_nil_r|]. split; [reflexivity|]. intros lossy.
  rewrite (subscribe_stuck lossy (sub "d") ps _ E (sub_safe _)); [reflexivity|cbn; lia|apply app_nil_r].
Qed.
Print Assumptions C158_subscribe_refuted.
Theorem C158_text_refuted : exists p ps r, wf 64 KAnnounceRequest p /\ encode_kind KAnnounceRequest p = Val ps /\ content r = wire ps /\
  forall lossy, ~ gets (j_interest lossy) r p [].
Proof.
  exists [xef; xbb; xbf; "a"%byte]. eexists _, (Reader [] (Recv [[x04; xef; xbb; xbf; "a"%byte]] Open)).
  assert (T : is_text [xef; xbb; xbf; "a"%byte]).
  { exists [0xFEFF; 0x61]. apply (utf8_cons _ _ [xef; xbb; xbf] ["a"%byte]).
    - apply utf8_3; try reflexivity; try (vm_compute; discriminate). right. split; [vm_compute; discriminate|reflexivity].
    - apply (utf8_cons _ _ ["a"%byte] []); [apply utf8_1; reflexivity|constructor]. }
  split; [split; [split; reflexivity|exact T]|]. split; [reflexivity|]. split; [reflexivity|]. intros lossy G.
  eapply interest_exact in G; [|reflexivity|exact T|reflexivity]. destruct G as [P _]. exact (P _ eq_refl).
Qed.
Print Assumptions C158_text_refuted.

(** ** C159: messages from JavaScript to Rust *)
Theorem C159_js_to_rust : forall w,
  heard w (fun a => w_announce (fst a) (snd a)) KAnnounce (fun a => fair_text w (fst a)) announce_back /\
  heard w w_interest KAnnounceRequest (fair_text w) (fun s => s) /\
  heard w w_subscribe KSubscribe
    (fun m => js_id m < 2 ^ 62 /\ fair_text w (js_broadcast m) /\ fair_text w (js_track m) /\ js_priority m < 64) subscribe_back /\
  heard w w_subscribe_ok KSubscribeOk (fun p => p < 64) (fun p => match Byte.of_N p with Some b => b | None => x00 end) /\
  heard w w_group KGroup (fun g => gh_subscribe g < 2 ^ 62 /\ safe (gh_sequence g)) (fun g => g) /\
  heard w w_info KSessionInfo safe info_back /\
  heard w w_client KClientSetup
    (fun m => safe (N.of_nat (length (cs_versions m))) /\ Forall safe (cs_versions m) /\ fair_extensions w (cs_extensions m)) (fun m => m) /\
  heard w w_server KServerSetup (fun m => safe (ss_version m) /\ fair_extensions w (ss_extensions m)) (fun m => m).
Proof.
  intros w. exact (conj (heard_announce w) (conj (heard_interest w) (conj (heard_subscribe w)
    (conj (heard_ok w) (conj (heard_group w) (conj (heard_info w) (conj (heard_client w) (heard_server w)))))))).
Qed.
Print Assumptions C159_js_to_rust.
Definition jsub (priority : N) : jsubscribe := JSubscribe 63 room catalog priority.
Lemma room_fair : fair_text 64 room.
Proof. split; [split; [split; reflexivity|text]|reflexivity]. Qed.
Lemma catalog_fair : fair_text 64 catalog.
Proof. split; [split; [split; reflexivity|text]|reflexivity]. Qed.
Example C159_meets : js_id (jsub 5) < 2 ^ 62 /\ fair_text 64 room /\ fair_text 64 catalog /\ js_priority (jsub 5) < 64 /\
  match w_subscribe (jsub 5) with Some bs => decode_kind 64 KSubscribe (bs ++ [x09]) | None => DFuel end
    = DOk (Subscribe 63 room catalog x05) [x09].
Proof. split; [reflexivity|]. split; [exact room_fair|]. split; [exact catalog_fair|]. split; [reflexivity|]. vm_compute. reflexivity. Qed.

(** A larger priority is not read for what it is: the first byte of it is, and the others are left on the stream, where the Rust
    endpoint expects the end. *)
Theorem C159_priority : forall w m, js_id m < 2 ^ 62 -> fair_text w (js_broadcast m) -> fair_text w (js_track m) ->
  safe (js_priority m) -> 64 <= js_priority m ->
  exists bs b l, w_subscribe m = Some bs /\ l <> [] /\
    forall rest, decode_kind w KSubscribe (bs ++ rest) = DOk (Subscribe (js_id m) (js_broadcast m) (js_track m) b) (l ++ rest).
Proof. exact subscribe_misheard. Qed.
Print Assumptions C159_priority.
Theorem C159_priority_ok : forall w p, safe p -> 64 <= p -> exists bs b l, w_subscribe_ok p = Some bs /\ l <> [] /\
  forall rest, decode_kind w KSubscribeOk (bs ++ rest) = DOk b (l ++ rest).
Proof. exact ok_misheard. Qed.
Print Assumptions C159_priority_ok.
Theorem C159_refuted : exists m bs, w_subscribe m = Some bs /\ js_priority m < 256 /\ fair_text 64 (js_broadcast m) /\ fair_text 64 (js_track m) /\
  decode_kind 64 KSubscribe bs <> DOk (subscribe_back m) [].
Proof.
  exists (jsub 100). eexists. split; [reflexivity|]. split; [reflexivity|]. split; [exact room_fair|]. split; [exact catalog_fair|].
  vm_compute. discriminate.
Qed.
Print Assumptions C159_refuted.

(** ** C160: the handshake of a JavaScript client with a Rust server *)
Theorem C160_handshake : forall w more r s, (exists bs, j_hello = Some bs /\ content r = bs ++ more) ->
  lively (sd_sched s) -> (9 <= length (sd_sched s))%nat ->
  exists r' s' answer, accept w r s = Shaken (Val (AOk tt)) r' s' /\ sd_sent s' = sd_sent s ++ answer /\ content r' = more /\
    forall rc rest, content rc = answer ++ rest -> gets j_connect rc tt rest.
Proof. exact shake. Qed.
Print Assumptions C160_handshake.
Example C160_meets : exists bs, j_hello = Some bs /\ bs = [x00; x01; xc0; x00; x00; x00; xff; x0d; xad; x00; x00].
Proof. eexists. split; [reflexivity|]. vm_compute. reflexivity. Qed.

(** It says what a Rust client says. *)
Theorem C160_hello : exists bs, j_hello = Some bs /\ request_bytes [our_version] bs.
Proof. exact hello_is. Qed.
Print Assumptions C160_hello.
(** And it goes on only if the version chosen is its own (a Rust client does not check, C38). *)
Theorem C160_version_exact : forall v bs r rest, reply_bytes v bs -> content r = bs ++ rest ->
  (gets j_connect r tt rest <-> v = our_version).
Proof. exact connect_good. Qed.
Print Assumptions C160_version_exact.
Theorem C160_strict : forall r rest, gets j_connect r tt rest -> exists rest', starts_with our_version (content r) rest'.
Proof. exact connect_strict. Qed.
Print Assumptions C160_strict.
Example C160_other : exists bs, reply_bytes 7 bs /\ fst (j_connect (Reader bs (Recv [] Open))) = JThrow.
Proof. eexists. split; [eexists; split; reflexivity|]. reflexivity. Qed.

(** ** C161: groups *)
(** From Rust: whatever part of it arrives, the JavaScript endpoint gets the first frames of the group, each whole; all of them if
    everything arrived, and a group it takes for complete is complete. *)
Theorem C161_from_rust : forall hdr v sched sv s r, header_ok hdr -> safe (gh_sequence hdr) ->
  Forall honest_frame (gv_frames v) -> Forall countable (gv_frames v) ->
  serve_group hdr v (Send [] sched) = (sv, s) -> prefix (content r) (sd_sent s) -> no_empty_piece r ->
  match j_group_stream r with
  | (JOk h, (fs, o)) => h = hdr /\ prefix fs (payloads v) /\ o <> JFuel /\ (ends r = Open -> o = JWait) /\ (ends r <> Open -> o <> JWait) /\
      (sv = SFinished -> content r = sd_sent s -> fs = payloads v /\ (ends r = Fin -> o = JOk tt)) /\
      (delivered sv s r -> o = JOk tt -> finished_view v /\ fs = payloads v)
  | (x, _) => (x = match ends r with Open => JWait | _ => JThrow end) /\ (sv = SFinished -> content r <> sd_sent s)
  end.
Proof. exact group_to_js. Qed.
Print Assumptions C161_from_rust.
Definition two : list bytes := [room; []; catalog].
Example C161_from_rust_meets : let hdr := GroupHeader 70 20000 in let v := GroupView (js_view two) (AOk tt) in
  header_ok hdr /\ safe (gh_sequence hdr) /\ Forall honest_frame (gv_frames v) /\ Forall countable (gv_frames v) /\
  let (sv, s) := serve_group hdr v (Send [] (repeat (Acc 3) 60)) in
  sv = SFinished /\
  j_group_stream (Reader [] (Recv [take 5 (sd_sent s); drop 5 (sd_sent s)] Fin)) = (JOk hdr, (two, JOk tt)).
Proof.
  cbv zeta. split; [split; reflexivity|]. split; [reflexivity|].
  split; [repeat constructor; cbn; lia|]. split; [repeat constructor|].
  assert (K : let (sv, s) := serve_group (GroupHeader 70 20000) (GroupView (js_view two) (AOk tt)) (Send [] (repeat (Acc 3) 60)) in
    sv = SFinished /\ j_group_stream (Reader [] (Recv [take 5 (sd_sent s); drop 5 (sd_sent s)] Fin)) = (JOk (GroupHeader 70 20000), (two, JOk tt))).
  { vm_compute. auto. }
  exact K.
Qed.

(** From JavaScript: likewise. *)
Theorem C161_from_js : forall w canc h frames, gh_subscribe h < 2 ^ 62 -> safe (gh_sequence h) ->
  Forall (fun f => safe (N.of_nat (length f)) /\ N.of_nat (length f) < 2 ^ w) frames ->
  exists bs, w_group_stream h frames = Some bs /\ forall r, prefix (content r) bs -> no_empty_piece r ->
    match recv_stream w canc r with
    | NoGroup a => a = match ends r with Fin => AErr (Decode Short) | Reset => AErr WebTransport | Open => APending end /\ content r <> bs
    | Arrived h' t g => h' = h /\ arrived_from (js_view frames) (frames_of g) /\
        (content r = bs -> frames_of g = map whole (js_view frames) /\ (ends r = Fin -> t = TDone /\ rg_closed g = Some Finished))
    end.
Proof. exact group_from_js. Qed.
Print Assumptions C161_from_js.
Example C161_from_js_meets : Forall (fun f => safe (N.of_nat (length f)) /\ N.of_nat (length f) < 2 ^ 64) two /\
  match w_group_stream (GroupHeader 63 16383) two with
  | Some bs => match recv_stream 64 false (Reader [] (Recv [bs] Fin)) with
               | Arrived h t g => h = GroupHeader 63 16383 /\ t = TDone /\ frames_of g = map whole (js_view two)
               | NoGroup _ => False
               end
  | None => False
  end.
Proof. split; [repeat constructor|]. vm_compute. auto. Qed.

(** ** C162: how the transport cuts the bytes does not matter *)
Theorem C162_cut_anyhow : forall lossy,
  cut_anyhow (j_accept_bi lossy) /\ cut_anyhow j_accept_uni /\ cut_anyhow j_connect /\
  cut_anyhow (j_announce lossy) /\ cut_anyhow j_subscribe_ok /\ cut_anyhow j_update /\ cut_anyhow j_info /\ cut_anyhow j_frame.
Proof. exact cuts. Qed.
Print Assumptions C162_cut_anyhow.
Example C162_meets : alike (Reader [x40] (Recv [[x05]; [x06]] Fin)) (Reader [] (Recv [[]; [x40; x05; x06]] Fin)) /\
  fst (j_update (Reader [x40] (Recv [[x05]; [x06]] Fin))) = JOk 5.
Proof. split; [split; reflexivity|]. reflexivity. Qed.

(** ** C163: requests on streams of their own *)
(** Each is served, with the message the peer sent, exactly if no earlier subscription (and not itself) has a priority from 64 on;
    otherwise it is never looked at. *)
Theorem C163_exact : forall lossy qs rs i q, Forall2 asked qs rs -> nth_error qs i = Some q ->
  ((exists r', nth_error (accept_loop (j_accept_bi lossy) rs) i = Some (Some (q, r'))) <-> Forall mild (firstn (S i) qs)) /\
  (~ Forall mild (firstn (S i) qs) -> nth_error (accept_loop (j_accept_bi lossy) rs) i = Some None).
Proof. exact loop_exact. Qed.
Print Assumptions C163_exact.
Definition stream_of (bs : bytes) : reader := Reader [] (Recv [bs] Open).
Definition sub_bytes (p : byte) : bytes :=
  bytes_of (encode_kind KControl CSubscribe) (fun t => bytes_of (encode_kind KSubscribe (sub p)) (fun c => t ++ c) []) [].
Definition int_bytes_of (p : bytes) : bytes :=
  bytes_of (encode_kind KControl CAnnounce) (fun t => bytes_of (encode_kind KAnnounceRequest p) (fun c => t ++ c) []) [].
Lemma sub_asked p : asked (BiSubscribe (subscribe_view (sub p))) (stream_of (sub_bytes p)).
Proof.
  exists (sub_bytes p). split; [|split; [apply app_nil_r|reflexivity]]. exists (sub p). split; [reflexivity|]. split; [apply sub_safe|].
  eexists _, _. split; [reflexivity|]. split; [reflexivity|]. reflexivity.
Qed.
Lemma room_asked : asked (BiInterest room) (stream_of (int_bytes_of room)).
Proof.
  exists (int_bytes_of room). split; [|split; [apply app_nil_r|reflexivity]]. split; [text|]. split; [plainly|].
  eexists _, _. split; [reflexivity|]. split; [reflexivity|]. reflexivity.
Qed.
Example C163_meets : Forall2 asked [BiInterest room; BiSubscribe (subscribe_view (sub x01))] [stream_of (int_bytes_of room); stream_of (sub_bytes x01)] /\
  map (option_map fst) (accept_loop (j_accept_bi qm) [stream_of (int_bytes_of room); stream_of (sub_bytes x01)])
    = [Some (BiInterest room); Some (BiSubscribe (subscribe_view (sub x01)))].
Proof.
  split; [constructor; [exact room_asked|]; constructor; [apply sub_asked|constructor]|]. vm_compute. reflexivity.
Qed.
(** One subscription to a catalog and nothing asked later is ever answered. *)
Theorem C163_refuted : exists qs rs i q, Forall2 asked qs rs /\ nth_error qs i = Some q /\ mild q /\
  forall lossy, nth_error (accept_loop (j_accept_bi lossy) rs) i = Some None.
Proof.
  exists [BiSubscribe (subscribe_view (sub "d")); BiInterest room], [stream_of (sub_bytes "d"); stream_of (int_bytes_of room)], 1%nat, (BiInterest room).
  assert (F : Forall2 asked [BiSubscribe (subscribe_view (sub "d")); BiInterest room] [stream_of (sub_bytes "d"); stream_of (int_bytes_of room)]).
  { constructor; [apply sub_asked|]. constructor; [exact room_asked|constructor]. }
  split; [exact F|]. split; [reflexivity|]. split; [exact I|]. intros lossy.
  apply (loop_exact lossy _ _ 1%nat (BiInterest room) F eq_refl). intros H. inversion H as [|? ? M _]. cbn in M. lia.
Qed.
Print Assumptions C163_refuted.

(** ** C164: media frames *)
Theorem C164_from_js : forall data t, safe t -> exists bs, js_encode_frame data (Z.of_N t) = Some bs /\
  forall index, media_decode index bs = Some (MFrame (t * 1000) (Nat.eqb index 0) data).
Proof. exact media_from_js. Qed.
Print Assumptions C164_from_js.
Example C164_from_js_meets : safe 1000000 /\ js_encode_frame room 1000000 = Some ([x80; x0f; x42; x40] ++ room).
Proof. split; [reflexivity|]. vm_compute. reflexivity. Qed.
Theorem C164_to_js : forall round53 ts h data, ieee_rounding round53 -> media_header ts = Val h -> ts / 1000 < 2 ^ 64 ->
  exists v, js_decode_frame round53 (h ++ data) = Some (v, data) /\ (ts / 1000 <= 2 ^ 53 -> v = ts / 1000) /\
    (2 ^ 53 <= ts / 1000 -> exists k, v = 2 * k).
Proof. exact media_to_js. Qed.
Print Assumptions C164_to_js.
(** Rounding to the even neighbour below, for the example *)
Definition down (n : N) : N := if n <=? 2 ^ 53 then n else 2 * (n / 2).
Example C164_to_js_meets : ieee_rounding down /\ js_decode_frame down ([x41; x2c] ++ room) = Some (300, room).
Proof.
  split; [|vm_compute; reflexivity]. unfold down. split.
  - intros n H. destruct (n <=? 2 ^ 53) eqn:E; [reflexivity|]. apply N.leb_gt in E. exfalso. apply (N.lt_irrefl n). eapply N.le_lt_trans; eassumption.
  - intros n H. destruct (n <=? 2 ^ 53) eqn:E; [|exists (n / 2); reflexivity]. apply N.leb_le in E.
    assert (n = 2 ^ 53) as -> by (apply N.le_antisymm; assumption). exists (2 ^ 52). reflexivity.
Qed.
(** A time before zero is written without complaint, and then it and the payload are read as something else. *)
Theorem C164_negative_refuted : exists t data bs index f, (t < 0)%Z /\ js_encode_frame data t = Some bs /\
  media_decode index bs = Some f /\ mf_data f <> data /\ 2 ^ 61 < mf_ts f.
Proof.
  exists (-1)%Z, (catalog ++ room). eexists. exists 0%nat. eexists. split; [reflexivity|]. split; [vm_compute; reflexivity|].
  split; [vm_compute; reflexivity|]. split; [vm_compute; discriminate|]. vm_compute. reflexivity.
Qed.
Print Assumptions C164_negative_refuted.
(** And a time beyond 2^53 microseconds comes out as another one. *)
Theorem C164_large_refuted : exists ts h, media_header ts = Val h /\ ts mod 1000 = 0 /\
  forall round53 data, ieee_rounding round53 -> js_decode_frame round53 (h ++ data) <> Some (ts / 1000, data).
Proof.
  exists ((2 ^ 53 + 1) * 1000). eexists. split; [reflexivity|]. split; [reflexivity|]. intros round53 data R H.
  destruct (media_to_js round53 ((2 ^ 53 + 1) * 1000) _ data R eq_refl ltac:(reflexivity)) as (v & E & _ & K).
  rewrite E in H. injection H as H. destruct (K ltac:(discriminate)) as (k & Hk). rewrite Hk in H.
  apply (f_equal N.odd) in H. rewrite N.odd_mul in H. discriminate.
Qed.
Print Assumptions C164_large_refuted.

(** ** C165: positions *)
(** JavaScript writes the JSON of an object.  A Rust reader never gets the position meant: it refuses the frame, or, if that is 12
    bytes long, takes its first four for a horizontal position of more than 10^35. *)
Theorem C165_misread : forall text, (exists rest, text = x7b :: rest) ->
  match place_decode text with None => True | Some p => 0x7b000000 <= pc_x p < 0x7c000000 end.
Proof. exact position_misread. Qed.
Print Assumptions C165_misread.
Theorem C165_refuted : exists p, place_decode ["{"; """"; "x"; """"; ":"; "0"; "."; "1"; "2"; "3"; "4"; "}"]%byte = Some p /\ pc_x p <> 0x3dfcb924.
Proof. eexists. split; [reflexivity|]. vm_compute. discriminate. Qed.
Print Assumptions C165_refuted.
