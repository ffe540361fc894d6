(** C115-C119: key files and tokens.  The JWT library's authentication code and some of its choices are arbitrary ([lib]). *)
From Coq Require Import NArith ZArith.
From Coq Require Import Strings.String.
From Coq Require Import List Bool Lia.
From Coq Require Import Init.Byte Strings.Byte.
From Verif.Model Require Import Base Map Text Codec Base64 Json Native Catalog CatalogJson Auth Token.
From Verif.Spec Require Import CodingSpec JsonSpec CatalogJsonSpec AuthSpec TokenSpec.
From Verif.Proofs Require Import BaseP MapP TextP JsonP CatalogJsonP CatalogPrintP Base64P AuthP TokenP.
Import ListNotations.
Open Scope N_scope.

(** ** C115: a key is read from a file as it was written *)
Theorem C115_roundtrip : forall k, key_value k -> parse_keyfile (print_keyfile k) = Got k.
Proof. exact keyfile_roundtrip. Qed.
Print Assumptions C115_roundtrip.
(** It is read exactly from the JSON texts that say it. *)
Theorem C115_text : forall s k, parse_keyfile s = Got k <-> exists v, document v s /\ is_keyfile v k.
Proof. exact parse_keyfile_exact. Qed.
Print Assumptions C115_text.
Lemma is_ascii s : utf8_valid s = true -> is_text s.
Proof. apply utf8_valid_iff. Qed.
Definition key_1 : key := Key HS256 [OpSign; OpVerify] [xde; xad; xbe; xef] (Some (text "k1")).
Lemma key_1_value : key_value key_1.
Proof. split; [repeat constructor; cbn; intuition discriminate|]. intros s [= <-]. apply is_ascii. reflexivity. Qed.
Example C115_meets : key_value key_1 /\
  print_keyfile key_1 = text "{""alg"":""HS256"",""key_ops"":[""sign"",""verify""],""k"":""3q2-7w=="",""kid"":""k1""}" /\
  parse_keyfile (text "{ ""kid"":null, ""k"" : ""3q2-7w"", ""use"":""sig"", ""key_ops"" : [""verify"",{""sign"":null},""verify""], ""alg"":""HS256"" }") =
  Got (Key HS256 [OpVerify; OpSign] [xde; xad; xbe; xef] None).
Proof. split; [exact key_1_value|]. split; vm_compute; reflexivity. Qed.

(** ** C116: a token made with a key is accepted by the key, and says the same *)
(** Also by another key with the same algorithm and secret; exactly as long as the library takes it to be current. *)
Theorem C116_signed : forall L nulls now sk vk p, permits sk OpSign -> permits vk OpVerify -> k_alg vk = k_alg sk -> k_secret vk = k_secret sk ->
  key_value sk -> payload_value p ->
  exists token, key_sign (jwt_at L nulls now) sk p = Some token /\
    (key_verify (jwt_at L nulls now) vk token = Some p <-> current L now p).
Proof.
  intros L nulls now sk vk p S V EA ES [_ K] P. eexists. split.
  - apply sign_spec. split; [exact S|reflexivity].
  - rewrite verify_spec. unfold accepted. cbn [jwt_at jwt_decode]. rewrite EA, ES. rewrite token_roundtrip by assumption. tauto.
Qed.
Print Assumptions C116_signed.
(** The relay grants what the token says, below the directory of the URL. *)
Theorem C116_relay : forall L nulls now a dir vk sk p token,
  dir <> [] -> ~ starts [slash] dir -> guarding a dir (Some vk) -> permits vk OpVerify -> k_alg vk = k_alg sk -> k_secret vk = k_secret sk ->
  key_value sk -> payload_value p -> current L now p -> key_sign (jwt_at L nulls now) sk p = Some token ->
  exists out, validate (jwt_at L nulls now) a (slash :: dir ++ slash :: token ++ dot_jwt) = Val (Some out) /\ moved dir p out.
Proof.
  intros L nulls now a dir vk sk p token D1 D2 G V EA ES [_ K] P C S. apply sign_spec in S. destruct S as [_ S]. cbn [jwt_at jwt_encode] in S. injection S as <-.
  set (token := token_encode L nulls (k_alg sk) (k_kid sk) (k_secret sk) p).
  exists (Payload (dir ++ pl_path p) (pl_publish p) (pl_force p) (pl_subscribe p) (pl_expires p) (pl_issued p)).
  assert (M : moved dir p (Payload (dir ++ pl_path p) (pl_publish p) (pl_force p) (pl_subscribe p) (pl_expires p) (pl_issued p))) by (repeat split).
  split; [|exact M].
  apply (validate_granted (jwt_at L nulls now) a _ (dir ++ slash :: token ++ dot_jwt) dir (token ++ dot_jwt) (Some vk)).
  - exists 1%nat. split; [reflexivity|]. intros [r E]. destruct dir as [|b dir]; [congruence|]. injection E as -> _. apply D2. exists dir. reflexivity.
  - left. split; [reflexivity|]. intros I. apply in_app_or in I. destruct I as [I|I].
    + apply token_bytes in I. destruct I as [I|I]; [discriminate|]. assert (H : existsb (Byte.eqb slash) alphabet = true) by (apply existsb_exists; exists slash; split; [exact I|reflexivity]). discriminate H.
    + cbn in I. repeat destruct I as [I|I]; try discriminate. exact I.
  - exact G.
  - left. exists vk, token, p. split; [reflexivity|]. split; [reflexivity|]. split; [|exact M]. split; [exact V|]. cbn [jwt_at jwt_decode]. rewrite EA, ES. apply token_roundtrip; assumption.
Qed.
Print Assumptions C116_relay.
Definition toy_lib : lib := Lib (fun _ secret m => map (fun b => u8 (n_of b * 7 + N.of_nat (List.length m))) secret) (fun _ => false) (fun _ => false) (fun _ => false) (fun _ => true).
Definition guest : payload := Payload (text "room") None (Some (text "/me")) (Some []) (Some 2000%Z) (Some 1000%Z).
Lemma guest_value : payload_value guest.
Proof.
  split; [apply is_ascii; reflexivity|]. split; [discriminate|]. split; [intros s [= <-]; apply is_ascii; reflexivity|].
  split; [intros s [= <-]; apply is_ascii; reflexivity|]. split; intros t [= <-]; unfold is_time; lia.
Qed.
Example C116_meets : permits key_1 OpSign /\ permits key_1 OpVerify /\ key_value key_1 /\ payload_value guest /\ current toy_lib 1500 guest /\
  guarding (Auth (Some key_1) []) (text "demo") (Some key_1).
Proof.
  split; [left; reflexivity|]. split; [right; left; reflexivity|]. split; [exact key_1_value|]. split; [exact guest_value|].
  split; [intros t [= <-]; left; lia|]. right. split; reflexivity.
Qed.
Example C116_token : key_sign (jwt_at toy_lib false 0) key_1 guest = Some (text
  "eyJ0eXAiOiJKV1QiLCJhbGciOiJIUzI1NiIsImtpZCI6ImsxIn0.eyJwYXRoIjoicm9vbSIsInB1YiEiOiIvbWUiLCJzdWIiOiIiLCJleHAiOjIwMDAsImlhdCI6MTAwMH0.lT61DA").
Proof. vm_compute. reflexivity. Qed.

(** ** C117: only tokens made with the key are accepted *)
(** Exactly those whose last part is the code, computed with the key's algorithm and secret, of the other two, whose header
    names that algorithm, and which say what is read. *)
Theorem C117_exact : forall L nulls now k token p, key_verify (jwt_at L nulls now) k token = Some p <->
  permits k OpVerify /\ exists h c, authentic L (k_alg k) (k_secret k) token h c /\
    encodes h (fun v => exists hd, is_header L v hd /\ h_alg hd = k_alg k) /\
    encodes c (fun v => is_payload v p /\ others L v = true) /\ current L now p.
Proof. intros. rewrite verify_spec. unfold accepted. cbn [jwt_at jwt_decode]. rewrite token_exact. reflexivity. Qed.
Print Assumptions C117_exact.
(** So a token whose content was changed is accepted only if the codes of both contents are the same. *)
Theorem C117_altered : forall L nulls now k h c h' c' s p,
  authentic L (k_alg k) (k_secret k) (h ++ "."%byte :: c ++ "."%byte :: s) h c -> ~ In "."%byte s -> ~ In "."%byte c' ->
  key_verify (jwt_at L nulls now) k (h' ++ "."%byte :: c' ++ "."%byte :: s) = Some p ->
  lib_mac L (k_alg k) (k_secret k) (h' ++ "."%byte :: c') = lib_mac L (k_alg k) (k_secret k) (h ++ "."%byte :: c).
Proof.
  intros L nulls now k h c h' c' s p (s0 & E & B) NS NC H. apply C117_exact in H. destruct H as (_ & h1 & c1 & (s1 & E1 & B1) & _ & C1 & _).
  apply encode_base64 in B, B1.
  assert (s0 = s) as -> by (apply app_inv_head in E; injection E as E; apply app_inv_head in E; injection E as E; symmetry; exact E).
  assert (N1 : ~ In dot s1) by (rewrite B1; apply alphabet_not, no_dot).
  assert (NC1 : ~ In dot c1) by (destruct C1 as (t & v & X & _); apply encode_base64 in X; rewrite X; apply alphabet_not, no_dot).
  assert (A : rsplit_once dot (h' ++ dot :: c' ++ dot :: s) = Some (h' ++ dot :: c', s)) by (apply rsplit_some; split; [rewrite <- app_assoc; reflexivity|exact NS]).
  change "."%byte with dot in *. rewrite E1 in A.
  assert (A1 : rsplit_once dot (h1 ++ dot :: c1 ++ dot :: s1) = Some (h1 ++ dot :: c1, s1)) by (apply rsplit_some; split; [rewrite <- app_assoc; reflexivity|exact N1]).
  rewrite A1 in A. injection A as A ->. rewrite <- A. apply encode_inj. congruence.
Qed.
Print Assumptions C117_altered.
(** A token made with another algorithm is refused, whatever the secrets. *)
Theorem C117_algorithm : forall L nulls now sk vk p q token, key_value sk -> k_alg sk <> k_alg vk ->
  key_sign (jwt_at L nulls now) sk p = Some token -> key_verify (jwt_at L nulls now) vk token <> Some q.
Proof.
  intros L nulls now sk vk p q token [_ K] D S H. apply sign_spec in S. destruct S as [_ S]. cbn [jwt_at jwt_encode] in S. injection S as <-.
  apply C117_exact in H. destruct H as (_ & h & c & (s & E & B) & Hh & C & _).
  destruct (header_encodes L (k_alg sk) (k_kid sk) K) as (hs & hv & B1 & D1 & hd1 & H1 & A1). apply encode_base64 in B1.
  unfold token_encode in E.
  assert (NS : ~ In dot s) by (apply encode_base64 in B; rewrite B; apply alphabet_not, no_dot).
  assert (NC : ~ In dot c) by (destruct C as (t & v & X & _); apply encode_base64 in X; rewrite X; apply alphabet_not, no_dot).
  set (m := b64_encode (print (j_header (k_alg sk) (k_kid sk))) ++ dot :: b64_encode (print (j_payload nulls p))) in *.
  assert (A : rsplit_once dot (m ++ dot :: b64_encode (lib_mac L (k_alg sk) (k_secret sk) m)) = Some (m, b64_encode (lib_mac L (k_alg sk) (k_secret sk) m))) by (apply rsplit_some; split; [reflexivity|apply alphabet_not, no_dot]).
  change "."%byte with dot in *. rewrite E in A.
  assert (A2 : rsplit_once dot (h ++ dot :: c ++ dot :: s) = Some (h ++ dot :: c, s)) by (apply rsplit_some; split; [rewrite <- app_assoc; reflexivity|exact NS]).
  rewrite A2 in A. injection A as A _.
  assert (A3 : rsplit_once dot m = Some (h, c)) by (apply rsplit_some; split; [symmetry; exact A|exact NC]).
  assert (A4 : rsplit_once dot m = Some (b64_encode (print (j_header (k_alg sk) (k_kid sk))), b64_encode (print (j_payload nulls p)))) by (apply rsplit_some; split; [reflexivity|apply alphabet_not, no_dot]).
  rewrite A3 in A4. apply (f_equal (fun x => match x with Some (a, _) => a | None => [] end)) in A4. cbv beta iota in A4. rewrite A4 in Hh. clear A4. apply encode_inj in B1. subst hs.
  destruct Hh as (hs & hv2 & B2 & D2 & hd2 & H2 & A5). apply encode_base64 in B2. apply encode_inj in B2. subst hs.
  pose proof (document_wf _ _ D1) as W. apply read_json_exact in D1, D2. assert (hv2 = hv) as -> by congruence.
  apply reads_header in H1, H2; [|exact W..]. assert (hd1 = hd2) as -> by congruence. congruence.
Qed.
Print Assumptions C117_algorithm.
Example C117_meets : let t := text "eyJ0eXAiOiJKV1QiLCJhbGciOiJIUzI1NiIsImtpZCI6ImsxIn0.eyJwYXRoIjoicm9vbSIsInB1YiEiOiIvbWUiLCJzdWIiOiIiLCJleHAiOjIwMDAsImlhdCI6MTAwMH0.lT61DA" in
  key_verify (jwt_at toy_lib false 1500) key_1 t = Some guest /\ key_verify (jwt_at toy_lib false 1500) (Key HS384 [OpVerify] [xde; xad; xbe; xef] None) t = None /\
  key_verify (jwt_at toy_lib false 1500) (Key HS256 [OpVerify] [xde; xad; xbe] None) t = None.
Proof. vm_compute. auto. Qed.

(** ** C118: an expired token is refused *)
Definition C118_expired : Prop := forall L nulls now k token p, key_verify (jwt_at L nulls now) k token = Some p -> unexpired 0 now p.
(** False: it is accepted for another minute. *)
Theorem C118_expired_refuted : exists L nulls now k token p, key_verify (jwt_at L nulls now) k token = Some p /\ ~ unexpired 0 now p.
Proof.
  destruct (C116_signed toy_lib false 2060 key_1 key_1 guest) as (token & _ & H); try reflexivity; try exact key_1_value; try exact guest_value; [left; reflexivity|right; left; reflexivity|].
  exists toy_lib, false, 2060, key_1, token, guest. split.
  - apply H. intros t [= <-]. left. lia.
  - intros U. specialize (U 2000%Z eq_refl). lia.
Qed.
Print Assumptions C118_expired_refuted.
(** But not longer (times before 1970 apart, which the command line does not take). *)
Theorem C118_expired_partial : forall L nulls now k token p, key_verify (jwt_at L nulls now) k token = Some p -> nonnegative p -> unexpired 60 now p.
Proof.
  intros L nulls now k token p H N t E. apply C117_exact in H. destruct H as (_ & h & c & _ & _ & _ & C). specialize (N t E). destruct (C t E) as [[_ A]|[A _]]; lia.
Qed.
Print Assumptions C118_expired_partial.
Example C118_meets : exists t, key_sign (jwt_at toy_lib false 2060) key_1 guest = Some t /\
  key_verify (jwt_at toy_lib false 2060) key_1 t = Some guest /\ key_verify (jwt_at toy_lib false 2061) key_1 t = None /\ nonnegative guest.
Proof. eexists. split; [reflexivity|]. split; [vm_compute; reflexivity|]. split; [vm_compute; reflexivity|]. intros t [= <-]. lia. Qed.

(** ** C119: [moq-token verify] accepts what [moq-token sign] prints *)
Definition C119_pipe : Prop := forall L nulls now k p out, permits k OpVerify -> key_value k -> payload_value p -> current L now p ->
  cli_sign (jwt_at L nulls now) k p = Some out -> cli_verify (jwt_at L nulls now) k out = Some p.
(** False, and never true: the line break counts as part of the token. *)
Theorem C119_pipe_refuted : exists L nulls now k p out, permits k OpVerify /\ key_value k /\ payload_value p /\ current L now p /\
  cli_sign (jwt_at L nulls now) k p = Some out /\ cli_verify (jwt_at L nulls now) k out = None.
Proof.
  exists toy_lib, false, 1500, key_1, guest. eexists. destruct C116_meets as (_ & A & B & C & D & _). repeat (split; [eassumption|]).
  split; [reflexivity|]. vm_compute. reflexivity.
Qed.
Print Assumptions C119_pipe_refuted.
Theorem C119_never : forall L nulls now k k' p out, cli_sign (jwt_at L nulls now) k p = Some out -> cli_verify (jwt_at L nulls now) k' out = None.
Proof.
  intros L nulls now k k' p out. unfold cli_sign, cli_verify. destruct (key_sign (jwt_at L nulls now) k p) as [t|]; [|discriminate]. intros [= <-].
  unfold key_verify. destruct (existsb _ _); [|reflexivity]. cbn [jwt_at jwt_decode]. apply trailing; [|discriminate].
  intros I. assert (H : existsb (Byte.eqb newline) alphabet = true) by (apply existsb_exists; exists newline; split; [exact I|reflexivity]). discriminate H.
Qed.
Print Assumptions C119_never.
(** Without the line break it does. *)
Theorem C119_pipe_partial : forall L nulls now k p out, permits k OpVerify -> key_value k -> payload_value p -> current L now p ->
  cli_sign (jwt_at L nulls now) k p = Some out -> exists token, out = token ++ [newline] /\ cli_verify (jwt_at L nulls now) k token = Some p.
Proof.
  intros L nulls now k p out V K P C H. unfold cli_sign in H. destruct (key_sign (jwt_at L nulls now) k p) as [t|] eqn:E; [|discriminate]. injection H as <-.
  exists t. split; [reflexivity|]. assert (S : permits k OpSign) by (apply sign_spec in E; apply E).
  destruct (C116_signed L nulls now k k p S V eq_refl eq_refl K P) as (t' & E' & H). assert (t = t') as -> by congruence. apply H. exact C.
Qed.
Print Assumptions C119_pipe_partial.
