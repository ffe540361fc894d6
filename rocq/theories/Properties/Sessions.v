(** Properties C38, C70, C72: handshake, dispatch of incoming streams, session lifetime. *)
From Coq Require Import NArith ZArith List.
From Coq Require Import Init.Byte Strings.Byte.
From Verif.Model Require Import Base Coding Message ErrorCode Stream Frame Transfer Session.
From Verif.Spec Require Import CodingSpec MessageSpec StreamSpec SessionSpec.
From Verif.Proofs Require Import SessionP.
Import ListNotations.
Open Scope N_scope.

(** * C38 *)
(** The server's half: it accepts exactly a session request offering its version (given a transport
    that takes its answer), answers that very version, and otherwise sends nothing. *)
Theorem C38_server_exact : forall w r s, exists a r' s', accept w r s = Shaken (Val a) r' s' /\ a <> AFuel /\
  (a = AOk tt -> exists vs rest, offers w vs (content r) rest /\ In our_version vs /\
     content r' = rest /\ exists answer, reply_bytes our_version answer /\ sd_sent s' = sd_sent s ++ answer) /\
  (forall vs rest, offers w vs (content r) rest -> In our_version vs ->
     lively (sd_sched s) -> (9 <= length (sd_sched s))%nat -> a = AOk tt) /\
  (forall vs rest, offers w vs (content r) rest -> ~ In our_version vs ->
     a = AErr (Version vs [our_version])) /\
  (forall rest, starts_with 1 (content r) rest -> a = AErr (UnexpectedStream CAnnounce)) /\
  (forall rest, starts_with 2 (content r) rest -> a = AErr (UnexpectedStream CSubscribe)) /\
  ((forall vs rest, offers w vs (content r) rest -> ~ In our_version vs) -> sd_sent s' = sd_sent s).
Proof. exact server_exact. Qed.
Print Assumptions C38_server_exact.

(** The client's half: it sends a request offering its version and completes exactly when a setup
    answer arrives, whatever version that names. *)
Theorem C38_client_exact : forall w r s, exists a r' s', connect w r s = Shaken (Val a) r' s' /\ a <> AFuel /\
  (a = AOk tt -> exists v request, replies w v (content r) (content r') /\
     request_bytes [our_version] request /\ sd_sent s' = sd_sent s ++ request) /\
  (forall v rest, replies w v (content r) rest -> lively (sd_sched s) -> (11 <= length (sd_sched s))%nat ->
     a = AOk tt).
Proof. exact client_exact. Qed.
Print Assumptions C38_client_exact.

(** Full claim: a client completes only with a version it offered.  It fails: the version in the
    answer is not looked at. *)
Theorem C38_client_version_refuted : exists w r s request v,
  sk_result (connect w r s) = Val (AOk tt) /\ sd_sent (sk_send (connect w r s)) = request /\
  request_bytes [our_version] request /\
  (forall v', In v' [our_version] -> v' <> v) /\ replies w v (content r) [].
Proof.
  exists 64, (Reader [] (Recv [[x07; x00]] Open)), (Send [] (repeat (Acc 11) 11)), request, 7.
  split; [reflexivity|]. split; [reflexivity|]. split; [exact request_is|]. split.
  - intros v' [<-|[]]. discriminate.
  - exists []. reflexivity.
Qed.
Print Assumptions C38_client_version_refuted.

(** What does hold: talking to a server of this library both sides complete, with the version the
    client offered.  Missing from the full claim: any other server. *)
Theorem C38_agreement_partial : forall w rc sc rs ss,
  sd_sent sc = [] -> sd_sent ss = [] -> lively (sd_sched sc) -> lively (sd_sched ss) ->
  (11 <= length (sd_sched sc))%nat -> (9 <= length (sd_sched ss))%nat ->
  carries (sk_send (connect w rc sc)) rs -> carries (sk_send (accept w rs ss)) rc ->
  sk_result (connect w rc sc) = Val (AOk tt) /\ sk_result (accept w rs ss) = Val (AOk tt) /\
  replies w our_version (content rc) (content (sk_reader (connect w rc sc))) /\
  content (sk_reader (connect w rc sc)) = [] /\ content (sk_reader (accept w rs ss)) = [].
Proof. exact handshake_pair. Qed.
Print Assumptions C38_agreement_partial.

Definition c38_client : send := Send [] (repeat (Acc 3) 11).
Definition c38_server : send := Send [] (repeat (Acc 2) 9).
Definition c38_rs : reader := Reader [] (Recv [firstn 4 request; skipn 4 request] Open).
Definition c38_rc : reader := Reader [] (Recv [firstn 1 reply; skipn 1 reply] Open).
Example C38_example :
  carries (sk_send (connect 64 c38_rc c38_client)) c38_rs /\ carries (sk_send (accept 64 c38_rs c38_server)) c38_rc /\
  lively (sd_sched c38_client) /\ lively (sd_sched c38_server) /\
  offers 64 [our_version] (content c38_rs) [].
Proof.
  split; [split; reflexivity|]. split; [split; reflexivity|].
  split; [apply Forall_forall; intros a H; apply repeat_spec in H; eauto|].
  split; [apply Forall_forall; intros a H; apply repeat_spec in H; eauto|].
  pose proof (request_offers 64 []) as H. rewrite app_nil_r in H. exact H.
Qed.
(** A client that does not offer our version is refused with nothing sent. *)
Example C38_example_refused :
  let r := Reader [] (Recv [[x00; x02; x05; x07; x00]] Open) in
  offers 64 [5; 7] (content r) [] /\
  accept 64 r (Send [] []) = Shaken (Val (AErr (Version [5; 7] [our_version]))) (Reader [] (Recv [] Open)) (Send [] []).
Proof. split; [|reflexivity]. exists [], [x02; x05; x07; x00]. split; [apply starts_decode|]; reflexivity. Qed.

(** * C70 *)
Theorem C70_control_dispatch : forall r,
  (forall rest, starts_with 1 (content r) rest <->
     exists r', run_control r = ToAnnounce r' /\ content r' = rest /\ ends r' = ends r) /\
  (forall rest, starts_with 2 (content r) rest <->
     exists r', run_control r = ToSubscribe r' /\ content r' = rest /\ ends r' = ends r) /\
  (forall rest, starts_with 0 (content r) rest -> run_control r = Refused (UnexpectedStream CSession) 10) /\
  (forall v rest, 2 < v -> starts_with v (content r) rest -> run_control r = Refused (Decode InvalidValue) 0) /\
  (no_integer (content r) -> run_control r =
     match ends r with Fin => Refused (Decode Short) 0 | Reset => Refused WebTransport 0 | Open => Undecided end) /\
  run_control r <> DispatchFuel /\ (forall r', run_control r <> ToGroup r').
Proof. exact control_exact. Qed.
Print Assumptions C70_control_dispatch.

Theorem C70_data_dispatch : forall r,
  (forall rest, starts_with 0 (content r) rest <->
     exists r', run_data r = ToGroup r' /\ content r' = rest /\ ends r' = ends r) /\
  (forall v rest, v <> 0 -> starts_with v (content r) rest -> run_data r = Refused (Decode InvalidValue) 0) /\
  (no_integer (content r) -> run_data r =
     match ends r with Fin => Refused (Decode Short) 0 | Reset => Refused WebTransport 0 | Open => Undecided end) /\
  run_data r <> DispatchFuel /\ (forall r', run_data r <> ToAnnounce r' /\ run_data r <> ToSubscribe r').
Proof. exact data_exact. Qed.
Print Assumptions C70_data_dispatch.

(** The cases cover every byte stream and exclude each other. *)
Theorem C70_cases : forall bs,
  ((exists v rest, starts_with v bs rest) \/ no_integer bs) /\
  (forall v1 r1 v2 r2, starts_with v1 bs r1 -> starts_with v2 bs r2 -> v1 = v2 /\ r1 = r2).
Proof. intros bs. split; [exact (starts_or_not bs)|]. intros v1 r1 v2 r2. exact (starts_unique v1 r1 v2 r2 bs). Qed.
Print Assumptions C70_cases.

Example C70_example :
  run_control (Reader [] (Recv [[x40]; [x02; xaa]; [xbb]] Open)) = ToSubscribe (Reader [xaa] (Recv [[xbb]] Open)) /\
  run_control (Reader [] (Recv [[x09]] Open)) = Refused (Decode InvalidValue) 0 /\
  run_control (Reader [] (Recv [[x40]] Open)) = Undecided /\
  run_data (Reader [] (Recv [[x00; x01]] Fin)) = ToGroup (Reader [x01] (Recv [] Fin)).
Proof. repeat split. Qed.

(** * C72 *)
Theorem C72_session_lifetime : forall r, no_empty_piece r ->
  session_stream r = match ends r with Fin => AErr Cancel | Reset => AErr WebTransport | Open => APending end.
Proof. exact session_stream_spec. Qed.
Print Assumptions C72_session_lifetime.

Example C72_example :
  session_stream (Reader [x01] (Recv [[xff; x00]; [x07]] Open)) = APending /\
  session_stream (Reader [] (Recv [[xff; x00]] Fin)) = AErr Cancel.
Proof. split; reflexivity. Qed.
