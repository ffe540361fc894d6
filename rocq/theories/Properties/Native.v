(** Properties C104-C107: certificates, and the URL of a session. *)
From Coq Require Import NArith Arith List Lia Bool.
From Coq Require Import Init.Byte Strings.Byte.
From Verif.Model Require Import Base Map Text Auth Native.
From Verif.Spec Require Import AuthSpec NativeSpec.
From Verif.Proofs Require Import MapP TextP AuthP NativeP.
Import ListNotations.

(** * C104 *)
(** With an http URL the client talks to exactly the server whose certificate has the fingerprint in the page it fetched:
    hexadecimal digits of either case, between spaces.  Neither roots nor [disable_verify] matter. *)
Theorem C104_pinned : forall sha trusted insecure fetched leaf host,
  connect sha trusted insecure s_http fetched leaf host = Val (Connected false) <->
  exists s t, fetched = Some s /\ padded s t /\ hexes t (sha leaf).
Proof. exact pinned_exact. Qed.
Print Assumptions C104_pinned.
(** With a relay's own page it accepts exactly the relay's first certificate, up to its fingerprint. *)
Theorem C104_page : forall sha trusted insecure certs p leaf host, page sha certs = Val p ->
  connect sha trusted insecure s_http (Some p) leaf host = Val (Connected false) <->
  exists c r, certs = c :: r /\ sha leaf = sha c.
Proof. exact page_connects. Qed.
Print Assumptions C104_page.
(** So a relay with one certificate is reached by any name.  Missing: relays with several. *)
Theorem C104_single_partial : forall sha names dns trusted insecure c p sent leaf host,
  page sha [c] = Val p -> visits names dns [c] sent leaf ->
  connect sha trusted insecure s_http (Some p) leaf host = Val (Connected false).
Proof.
  intros sha names dns trusted insecure c p sent leaf host P V. apply (page_connects sha trusted insecure [c] p leaf host P).
  exists c, []. split; [reflexivity|]. unfold visits, resolve in V. destruct (best names dns [c] sent) as [[x|]|] eqn:B; try discriminate.
  - injection V as ->. unfold best in B. destruct sent as [n|]; [|discriminate]. destruct (dns n); [|discriminate].
    apply first_valid_some in B. destruct B as (l & r & H & _). destruct l as [|? [|? ?]]; cbn in H; try discriminate. injection H as -> _. reflexivity.
  - cbn in V. injection V as ->. reflexivity.
Qed.
Print Assumptions C104_single_partial.

(** A toy: the fingerprint is the certificate; a certificate is valid for the name it consists of. *)
Definition toy_names (c : bytes) : option (bytes -> bool) := match c with [] => None | _ => Some (str_eqb c) end.
(** False in general: the page has only the first fingerprint, the server presents the second certificate, which is
    the one for the name asked for. *)
Theorem C104_several_refuted : exists sha names dns trusted certs p name leaf,
  (forall a b, sha a = sha b -> a = b) /\ Forall (parsable names) certs /\ page sha certs = Val p /\
  visits names dns certs (Some name) leaf /\ valid_for names leaf name /\ In leaf certs /\
  connect sha trusted false s_http (Some p) leaf name = Val Refused.
Proof.
  exists (fun b => b), toy_names, (fun _ => true), (fun _ _ => true), [[x61]; [x62]], (hex [x61]), [x62], [x62].
  split; [auto|]. split; [repeat constructor; discriminate|]. split; [reflexivity|]. split; [reflexivity|].
  split; [eexists; split; reflexivity|]. split; [right; left; reflexivity|reflexivity].
Qed.
Print Assumptions C104_several_refuted.
Example C104_example :
  page (fun b => b) [[x61]; [x62]] = Val ["6"; "1"]%byte /\
  connect (fun b => b) (fun _ _ => false) false s_http (Some [" "; "4"; "a"; "4"; "B"; x0a]%byte) ["J"; "K"]%byte [] = Val (Connected false) /\
  connect (fun b => b) (fun _ _ => false) true s_http (Some ["4"; "a"]%byte) ["K"]%byte [] = Val Refused /\
  connect (fun b => b) (fun _ _ => false) true s_http (Some ["4"]%byte) ["K"]%byte [] = Val NoFingerprint /\
  visits toy_names (fun _ => true) [[x61]] (Some [x62]) [x61].
Proof. repeat split. Qed.

(** * C105 *)
(** The first certificate valid for the name is presented, if there is one. *)
Theorem C105_presented : forall names dns certs n, dns n = true -> Forall (parsable names) certs ->
  (exists c, In c certs /\ valid_for names c n) ->
  exists l c r, certs = l ++ c :: r /\ visits names dns certs (Some n) c /\ valid_for names c n /\
    Forall (fun x => ~ valid_for names x n) l.
Proof.
  intros names dns certs n D P (c0 & I & V0). destruct (first_valid_val names certs n P) as [[c|] E].
  - destruct (proj1 (first_valid_some _ _ _ _) E) as (l & r & H & V & _ & N). exists l, c, r. split; [exact H|]. split; [|auto].
    unfold visits, resolve, best. rewrite D, E. reflexivity.
  - apply first_valid_none in E. destruct E as [_ N]. rewrite Forall_forall in N. destruct (N _ I V0).
Qed.
Print Assumptions C105_presented.
(** Otherwise, and without a name, the first of all. *)
Theorem C105_default : forall names dns certs sent c r, certs = c :: r ->
  (forall n, sent = Some n -> dns n = true -> Forall (parsable names) certs /\ Forall (fun x => ~ valid_for names x n) certs) ->
  visits names dns certs sent c.
Proof.
  intros names dns certs sent c r -> H. unfold visits, resolve, best. destruct sent as [n|]; [|reflexivity].
  destruct (dns n) eqn:D; [|reflexivity]. rewrite (proj2 (first_valid_none names (c :: r) n) (H n eq_refl D)). reflexivity.
Qed.
Print Assumptions C105_default.
(** Exactly when the handshake panics: before a certificate for the name comes one that webpki cannot read. *)
Theorem C105_panics_exactly : forall names dns certs sent, resolve names dns certs sent = Panic <->
  exists n l c r, sent = Some n /\ dns n = true /\ certs = l ++ c :: r /\ names c = None /\
    Forall (parsable names) l /\ Forall (fun x => ~ valid_for names x n) l.
Proof. exact resolve_panics. Qed.
Print Assumptions C105_panics_exactly.
(** Such certificates are not rejected when the server starts: the configuration is accepted, and the page served. *)
Theorem C105_startup_refuted : exists sha names dns files certs p,
  server_certs files None = Some certs /\ page sha certs = Val p /\
  forall n, dns n = true -> resolve names dns certs (Some n) = Panic.
Proof.
  exists (fun b => b), toy_names, (fun n => negb (str_eqb n [])), [(Some [[]; [x61]], true)], [[]], [].
  split; [reflexivity|]. split; [reflexivity|]. intros n D. unfold resolve, best. rewrite D. reflexivity.
Qed.
Print Assumptions C105_startup_refuted.
(** The configuration is loaded completely, in order, or not at all; and a relay without certificate does not start. *)
Theorem C105_loaded : forall files gen certs, server_certs files gen = Some certs <->
  exists l, Forall2 (fun f c => snd f = true /\ exists r, fst f = Some (c :: r)) files l /\
    certs = l ++ match gen with Some c => [c] | None => [] end.
Proof.
  intros files gen certs. unfold server_certs.
  assert (H : forall l, load_all files = Some l <-> Forall2 (fun f c => snd f = true /\ exists r, fst f = Some (c :: r)) files l).
  { induction files as [|[c k] files IH]; intros l; cbn.
    - split; [intros [= <-]; constructor|inversion 1; reflexivity].
    - split.
      + destruct c as [[|leaf c]|]; cbn; try discriminate. destruct k; [|discriminate].
        destruct (load_all files) as [r|] eqn:R; [|discriminate]. intros [= <-]. constructor; [split; [reflexivity|eexists; reflexivity]|apply IH; reflexivity].
      + inversion 1 as [|? x ? r' [K (r & E)] F]; subst. cbn in K, E. subst. cbn. rewrite (proj2 (IH _) F). reflexivity. }
  split.
  - destruct (load_all files) as [l|] eqn:L; [|discriminate]. intros [= <-]. exists l. split; [apply H; reflexivity|reflexivity].
  - intros (l & F & ->). rewrite (proj2 (H l) F). reflexivity.
Qed.
Print Assumptions C105_loaded.
Example C105_example :
  visits toy_names (fun _ => true) [[x61]; [x62]; [x62]] (Some [x62]) [x62] /\ visits toy_names (fun _ => true) [[x61]; [x62]] (Some [x63]) [x61] /\
  visits toy_names (fun _ => true) [[x61]; [x62]] None [x61] /\
  server_certs [(Some [[x61]; [x62]], true); (Some [[x63]], true)] (Some [x64]) = Some [[x61]; [x63]; [x64]].
Proof. repeat split. Qed.

(** * C106 *)
(** False: a connection to a moql URL panics once the server's certificate was accepted: the scheme is compared with the
    name of the protocol, which has a version in it. *)
Definition C106_total (sha : bytes -> bytes) (trusted : bytes -> bytes -> bool) : Prop :=
  forall insecure s fetched leaf host, connect sha trusted insecure s fetched leaf host <> Panic.
Theorem C106_total_refuted : exists sha trusted, ~ C106_total sha trusted.
Proof.
  exists (fun b => b), (fun _ _ => true). intros H. apply (H false s_moql None [] []). reflexivity.
Qed.
Print Assumptions C106_total_refuted.
(** Exactly then. *)
Theorem C106_panics_exactly : forall sha trusted insecure s fetched leaf host,
  connect sha trusted insecure s fetched leaf host = Panic <-> s = s_moql /\ (insecure = true \/ trusted leaf host = true).
Proof.
  intros sha trusted insecure s fetched leaf host. unfold connect, verifier_of. destruct (str_eqb_spec s s_http) as [->|NH].
  - split; [|intros [H _]; discriminate H]. destruct fetched as [t|]; [|discriminate]. destruct (unhex (trim t)) as [f|]; [|discriminate].
    change (str_eqb s_https s_https) with true. cbn [orb negb]. destruct (negb (accepts _ _ _ _ _)); discriminate.
  - destruct (str_eqb_spec s s_https) as [->|NS]; cbn [orb negb].
    + split; [|intros [H _]; discriminate H]. destruct (negb (accepts _ _ _ _ _)); discriminate.
    + destruct (str_eqb_spec s s_moql) as [->|NM]; cbn [negb].
      * change (str_eqb s_moql alpn) with false. destruct insecure; cbn [accepts negb].
        -- split; auto.
        -- destruct (trusted leaf host); cbn [negb]; split; auto; [discriminate|]. intros [_ [H|H]]; discriminate.
      * split; [discriminate|]. intros [H _]. contradiction.
Qed.
Print Assumptions C106_panics_exactly.
(** So no client ever has a session over plain QUIC. *)
Theorem C106_never_raw : forall sha trusted insecure s fetched leaf host,
  connect sha trusted insecure s fetched leaf host <> Val (Connected true).
Proof.
  intros sha trusted insecure s fetched leaf host. unfold connect. destruct (verifier_of insecure s fetched) as [v|]; [|discriminate].
  set (u := if str_eqb s s_http then s_https else s). destruct (str_eqb_spec u s_https) as [E|N]; cbn [orb negb].
  - destruct (negb (accepts _ _ _ _ _)); discriminate.
  - destruct (str_eqb_spec u s_moql) as [->|M]; cbn [negb]; [|discriminate]. destruct (negb (accepts _ _ _ _ _)); discriminate.
Qed.
Print Assumptions C106_never_raw.
(** With the other schemes there is always an answer, and with https the roots decide.  Missing: moql. *)
Theorem C106_https_partial : forall sha trusted insecure fetched leaf host,
  connect sha trusted insecure s_https fetched leaf host =
  Val (if insecure || trusted leaf host then Connected false else Refused).
Proof.
  intros. unfold connect, verifier_of. change (str_eqb s_https s_http) with false. change (str_eqb s_https s_https) with true.
  cbn [orb negb]. destruct insecure; cbn [accepts orb negb]; [reflexivity|]. destruct (trusted leaf host); reflexivity.
Qed.
Print Assumptions C106_https_partial.
Theorem C106_unknown_scheme : forall sha trusted insecure s fetched leaf host, s <> s_http -> s <> s_https -> s <> s_moql ->
  connect sha trusted insecure s fetched leaf host = Val BadScheme.
Proof.
  intros sha trusted insecure s fetched leaf host A B C. unfold connect, verifier_of.
  destruct (str_eqb_spec s s_http); [contradiction|]. destruct (str_eqb_spec s s_https); [contradiction|].
  destruct (str_eqb_spec s s_moql); [contradiction|]. reflexivity.
Qed.
Print Assumptions C106_unknown_scheme.
Example C106_example : connect (fun b => b) (fun _ _ => true) false ["f"; "t"; "p"]%byte None [] [] = Val BadScheme /\
  connect (fun b => b) (fun _ _ => true) false s_https None [] [] = Val (Connected false).
Proof. split; reflexivity. Qed.

(** * C107 *)
(** A session over plain QUIC is accepted without a panic before the token is looked at, and is admitted as if it had
    asked for the empty path, whatever it asked for. *)
Theorem C107_exact : forall j a sni asked, (forall n, sni = Some n -> forallb dns_byte n = true) ->
  admit j a true sni asked = validate j a [].
Proof.
  intros j a sni asked H. unfold admit, session_path. destruct sni as [n|]; [rewrite (H n eq_refl)|]; reflexivity.
Qed.
Print Assumptions C107_exact.
(** False: that it is admitted as over WebTransport.  With a key no token helps; without one for the root, a client that
    asks for a directory protected by a key is given everything. *)
Definition C107_same (j : jwt) (a : auth) : Prop := forall sni asked, (forall n, sni = Some n -> forallb dns_byte n = true) ->
  admit j a true sni asked = admit j a false sni asked.
Theorem C107_refused : forall j a key sni asked, (forall n, sni = Some n -> forallb dns_byte n = true) ->
  guarding a [] (Some key) -> admit j a true sni asked = Val None.
Proof.
  intros j a key sni asked H G. rewrite C107_exact by exact H. unfold validate. cbn [trim_start rsplit_once].
  destruct G as [G|[G K]]; rewrite G; [reflexivity|]. rewrite <- K. reflexivity.
Qed.
Print Assumptions C107_refused.
Theorem C107_all : forall j a sni asked, (forall n, sni = Some n -> forallb dns_byte n = true) ->
  guarding a [] None -> exists out, admit j a true sni asked = Val (Some out) /\ all_below [] out.
Proof.
  intros j a sni asked H G. rewrite C107_exact by exact H. unfold validate. cbn [trim_start rsplit_once].
  destruct G as [G|[G K]]; rewrite G; [|rewrite <- K]; (eexists; split; [reflexivity|repeat split]).
Qed.
Print Assumptions C107_all.
Definition toy_jwt : jwt := Jwt (fun _ s t => if str_eqb s t then Some (Payload [] None None (Some []) None None) else None) (fun _ _ s _ => Some s).
Definition toy_key : key := Key HS256 [OpVerify] [x6b] None.
Theorem C107_same_refuted :
  (exists j a asked, ~ C107_same j a /\ admit j a true None asked = Val None /\
    exists out, admit j a false None asked = Val (Some out)) /\
  (exists j a asked, ~ C107_same j a /\ admit j a false None asked = Val None /\
    exists out, admit j a true None asked = Val (Some out) /\ forall x, reaches out x).
Proof.
  split.
  - exists toy_jwt, (Auth (Some toy_key) []), ([slash; x6b] ++ dot_jwt). split.
    + intros H. specialize (H None ([slash; x6b] ++ dot_jwt) ltac:(discriminate)). discriminate H.
    + split; [reflexivity|]. eexists. reflexivity.
  - exists toy_jwt, (Auth None [([x64], Some toy_key)]), [slash; x64; slash; x78]. split.
    + intros H. specialize (H None [slash; x64; slash; x78] ltac:(discriminate)). discriminate H.
    + split; [reflexivity|]. eexists. split; [reflexivity|]. intros x. left. exists []. split; [left; reflexivity|]. exists x. reflexivity.
Qed.
Print Assumptions C107_same_refuted.
Example C107_example : forallb dns_byte ["a"; "."; "b"; "-"; "1"]%byte = true /\ guarding (Auth (Some toy_key) []) [] (Some toy_key) /\
  guarding (Auth None [([x64], Some toy_key)]) [] None.
Proof. split; [reflexivity|]. split; right; split; reflexivity. Qed.
