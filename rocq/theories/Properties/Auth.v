(** Properties C48-C50, C52, C76: the relay's access control. *)
From Coq Require Import NArith ZArith List Bool Lia.
From Coq Require Import Init.Byte Strings.Byte.
From Verif.Model Require Import Base Map Text Auth.
From Verif.Spec Require Import AuthSpec.
From Verif.Proofs Require Import MapP TextP AuthP.
Import ListNotations.
Open Scope nat_scope.

(** A toy JWT library: the token is the secret, a zero byte and the subscribe scope. *)
Definition toy_payload (s : bytes) : payload := Payload [] None None (Some s) None None.
Definition toy : jwt := Jwt
  (fun _ secret token => match split_once x00 token with
                         | Some (x, s) => if str_eqb x secret then Some (toy_payload s) else None
                         | None => None
                         end)
  (fun _ _ secret p => match pl_subscribe p with Some s => Some (secret ++ x00 :: s) | None => None end).
Definition kdemo : key := Key HS256 [OpVerify] [x6b] None.
Definition kroot : key := Key HS512 [OpSign; OpVerify] [x72] None.
Definition demo : bytes := [x64; x65; x6d; x6f].
(** Root key, "demo" with its own key, "pub" public. *)
Definition cfg : auth := Auth (Some kroot) [(demo, Some kdemo); ([x70; x75; x62], None)].

(** * C48 *)
(** Every URL path has a last component, a directory and a configuration for it. *)
Theorem C48_every_url : forall a url, exists p dir last k, trimmed url p /\ dir_last p dir last /\ guarding a dir k.
Proof. exact parts_exist. Qed.
Print Assumptions C48_every_url.

(** Access is granted exactly with a token accepted by the key of the directory, to what the token says
    below that directory; or, if there is no key, without token to everything below the path. *)
Theorem C48_granted_exactly : forall j a url p dir last k out,
  trimmed url p -> dir_last p dir last -> guarding a dir k ->
  (validate j a url = Val (Some out) <->
   (exists key token t, k = Some key /\ last = token ++ dot_jwt /\ accepted j key token t /\ moved dir t out) \/
   (k = None /\ ~ ends dot_jwt last /\ all_below p out)).
Proof. exact validate_granted. Qed.
Print Assumptions C48_granted_exactly.

(** The keys are those of the configured files: the directory's own, else the root's; an empty name
    means none. *)
Theorem C48_configured_keys : forall file c a, NoDup (map fst (ac_path c)) -> auth_new file c = Some a ->
  forall dir k, guarding a dir k ->
  let name := match lookup dir (ac_path c) with Some n => Some n | None => ac_key c end in
  match k with
  | None => name = None \/ name = Some []
  | Some k => exists n, name = Some n /\ n <> [] /\ file n = Some k
  end.
Proof. exact auth_new_keys. Qed.
Print Assumptions C48_configured_keys.

(** "/demo/k\0x.jwt" with the right and with the root's secret, "/pub/x", "/x". *)
Example C48_example :
  validate toy cfg (slash :: demo ++ slash :: [x6b; x00; x2f] ++ dot_jwt) = Val None /\
  validate toy cfg (slash :: demo ++ slash :: [x6b; x00; x73] ++ dot_jwt) = Val (Some (Payload demo None None (Some [x73]) None None)) /\
  validate toy cfg (slash :: demo ++ slash :: [x72; x00; x73] ++ dot_jwt) = Val None /\
  validate toy cfg ([slash; slash] ++ [x70; x75; x62; slash; x78]) =
    Val (Some (Payload [x70; x75; x62; slash; x78] (Some []) None (Some []) None None)) /\
  validate toy cfg [slash; x78] = Val None.
Proof. repeat split; reflexivity. Qed.
Example C48_example_config :
  auth_new (fun n => if str_eqb n [x66] then Some kdemo else None) (AuthConfig None [(demo, [x66]); ([x70], [])]) =
    Some (Auth None [([x70], None); (demo, Some kdemo)]) /\
  parse_key_val (demo ++ x3d :: [x66; x3d]) = Some [(demo, [x66; x3d])].
Proof. split; reflexivity. Qed.

(** * C49 *)
(** False: with no key configured any path ending in ".jwt" makes it panic. *)
Theorem C49_no_panic_refuted : exists j a url, au_key a = None /\ validate j a url = Panic.
Proof. exists toy, (Auth None []), (slash :: dot_jwt). split; reflexivity. Qed.
Print Assumptions C49_no_panic_refuted.

(** Exactly those paths: the last component ends in ".jwt" and no key guards the directory. *)
Theorem C49_panics_exactly : forall j a url p dir last k,
  trimmed url p -> dir_last p dir last -> guarding a dir k ->
  (validate j a url = Panic <-> k = None /\ ends dot_jwt last).
Proof. exact validate_panics. Qed.
Print Assumptions C49_panics_exactly.

(** What does hold.  Missing: configurations with a public directory or without root key. *)
Theorem C49_no_panic_partial : forall j a url, au_key a <> None -> (forall dir, lookup dir (au_paths a) <> Some None) ->
  validate j a url <> Panic.
Proof.
  intros j a url R P H. destruct (parts_exist a url) as (p & dir & l & k & T & D & G).
  apply (validate_panics j a url p dir l k T D G) in H. destruct H as [-> _]. destruct G as [G|[_ G]]; [exact (P dir G)|congruence].
Qed.
Print Assumptions C49_no_panic_partial.
Example C49_example : (exists url, validate toy (Auth (Some kroot) [(demo, Some kdemo)]) url = Val None) /\
  validate toy cfg ([x70; x75; x62; slash] ++ dot_jwt) = Panic.
Proof. split; [exists [x78]|]; reflexivity. Qed.

(** * C50 *)
(** False: scopes are plain string prefixes, joined without a separator.  A token signed with the key of
    "demo", with no path and an empty scope (the defaults), reaches "demo2/secret". *)
Theorem C50_confined_refuted : exists j a url dir key token t out x,
  lookup dir (au_paths a) = Some (Some key) /\ accepted j key token t /\ pl_path t = [] /\ pl_subscribe t = Some [] /\
  url = slash :: dir ++ slash :: token ++ dot_jwt /\ validate j a url = Val (Some out) /\
  reaches out x /\ ~ below dir x.
Proof.
  exists toy, cfg, (slash :: demo ++ slash :: [x6b; x00] ++ dot_jwt), demo, kdemo, [x6b; x00], (toy_payload []),
    (Payload demo None None (Some []) None None), (demo ++ [x32; slash; x73]).
  split; [reflexivity|]. split; [split; [left; reflexivity|reflexivity]|]. split; [reflexivity|]. split; [reflexivity|].
  split; [reflexivity|]. split; [reflexivity|]. split.
  - left. exists []. split; [right; reflexivity|]. exists [x32; slash; x73]. reflexivity.
  - intros [H|[r H]]; discriminate H.
Qed.
Print Assumptions C50_confined_refuted.

(** Exactly the tokens that are confined to the directory of their key: path and scope together begin
    with a slash. *)
Theorem C50_confined_exactly : forall dir t out, moved dir t out ->
  ((forall x, reaches out x -> below dir x) <->
   (forall scope, pl_publish t = Some scope \/ pl_subscribe t = Some scope -> starts [slash] (pl_path t ++ scope)) /\
   (forall f, pl_force t = Some f -> pl_path t ++ f = [] \/ starts [slash] (pl_path t ++ f))).
Proof. exact confined_exact. Qed.
Print Assumptions C50_confined_exactly.

(** A token signed with the root key is not bound to any place: its holder may put any directory that
    has no key of its own in front. *)
Theorem C50_root_token_floats : forall j a key token t dir, au_key a = Some key -> accepted j key token t -> ~ In slash token ->
  dir <> [] -> ~ starts [slash] dir -> lookup dir (au_paths a) = None ->
  exists out, validate j a (slash :: dir ++ slash :: token ++ dot_jwt) = Val (Some out) /\ moved dir t out.
Proof. exact root_token_floats. Qed.
Print Assumptions C50_root_token_floats.

(** Scope "/s" is confined, and the root's token for "s" used below "x/". *)
Example C50_example :
  (forall x, reaches (Payload demo None None (Some [slash; x73]) None None) x -> below demo x) /\
  validate toy cfg ([slash; x78; slash; slash; x72; x00; x73] ++ dot_jwt) = Val (Some (Payload [x78; slash] None None (Some [x73]) None None)) /\
  (exists key t, au_key cfg = Some key /\ accepted toy key [x72; x00; x73] t /\ ~ In slash [x72; x00; x73] /\ lookup [x78; slash] (au_paths cfg) = None).
Proof.
  split; [|split; [reflexivity|]].
  - apply (confined_exact demo (toy_payload [slash; x73])); [repeat split|]. cbn. split; [|discriminate].
    intros s [H|H]; [discriminate|]. injection H as <-. exists [x73]. reflexivity.
  - exists kroot, (toy_payload [x73]). split; [reflexivity|]. split; [split; [right; left; reflexivity|reflexivity]|].
    split; [|reflexivity]. cbn. intros H. repeat (destruct H as [H|H]; [discriminate H|]). exact H.
Qed.

(** * C76 *)
(** False: without a root key (then the directory above is public) what lies below a directory with a
    key is reached without any token. *)
Theorem C76_protected_refuted : exists j a url out dir key x,
  lookup dir (au_paths a) = Some (Some key) /\ (forall k token, jwt_decode j (k_alg k) (k_secret k) token = None) /\
  validate j a url = Val (Some out) /\ reaches out x /\ below dir x.
Proof.
  exists (Jwt (fun _ _ _ => None) (fun _ _ _ _ => None)), (Auth None [(demo, Some kdemo)]), (slash :: demo),
    (Payload demo (Some []) None (Some []) None None), demo, kdemo, (demo ++ [slash; x73]).
  split; [reflexivity|]. split; [reflexivity|]. split; [reflexivity|]. split.
  - left. exists []. split; [right; reflexivity|]. exists [slash; x73]. reflexivity.
  - right. exists [x73]. reflexivity.
Qed.
Print Assumptions C76_protected_refuted.

(** What does hold: with a root key and no public directory every access was granted by a token accepted
    under a configured key.  Missing: that it is the key of the directory reached. *)
Theorem C76_protected_partial : forall j a url out,
  au_key a <> None -> (forall dir, lookup dir (au_paths a) <> Some None) -> validate j a url = Val (Some out) ->
  exists dir key token t, guarding a dir (Some key) /\ accepted j key token t /\ moved dir t out.
Proof.
  intros j a url out R P H. destruct (parts_exist a url) as (p & dir & l & k & T & D & G).
  apply (validate_granted j a url p dir l k out T D G) in H. destruct H as [(key & token & t & -> & _ & A & M)|[-> _]].
  - exists dir, key, token, t. auto.
  - destruct G as [G|[_ G]]; [destruct (P dir G)|congruence].
Qed.
Print Assumptions C76_protected_partial.
Example C76_example : au_key (Auth (Some kroot) [(demo, Some kdemo)]) <> None /\
  validate toy (Auth (Some kroot) [(demo, Some kdemo)]) (demo ++ slash :: [x6b; x00; slash; x73] ++ dot_jwt) = Val None /\
  validate toy (Auth (Some kroot) [(demo, Some kdemo)]) (demo ++ slash :: [x6b; x00; x73] ++ dot_jwt) =
    Val (Some (Payload demo None None (Some [x73]) None None)).
Proof. split; [discriminate|]. split; reflexivity. Qed.

(** * C52 *)
(** Signing and verifying need the operation, and use exactly the key's algorithm and secret. *)
Theorem C52_sign : forall j k p s, key_sign j k p = Some s <->
  permits k OpSign /\ jwt_encode j (k_alg k) (k_kid k) (k_secret k) p = Some s.
Proof. exact sign_spec. Qed.
Print Assumptions C52_sign.
Theorem C52_verify : forall j k token t, key_verify j k token = Some t <-> accepted j k token t.
Proof. exact verify_spec. Qed.
Print Assumptions C52_verify.

(** A generated key reads back what it signs, provided the JWT library does. *)
Theorem C52_generated : forall j alg id random p s,
  (forall a kid sec q tok, jwt_encode j a kid sec q = Some tok -> jwt_decode j a sec tok = Some q) ->
  key_sign j (key_generate alg id random) p = Some s ->
  key_verify j (key_generate alg id random) s = Some p.
Proof.
  intros j alg id random p s L H. apply sign_spec in H. apply verify_spec. split; [right; left; reflexivity|].
  exact (L _ _ _ _ _ (proj2 H)).
Qed.
Print Assumptions C52_generated.

(** Its secret is as long as the digest of the algorithm named. *)
Theorem C52_secret_size : forall alg id random, (forall n, length (random n) = n) ->
  8 * length (k_secret (key_generate alg id random)) =
  match alg with HS256 => 256 | HS384 => 384 | HS512 => 512 end.
Proof. intros alg id random L. destruct alg; cbn [key_generate k_secret]; rewrite L; reflexivity. Qed.
Print Assumptions C52_secret_size.

(** A relay never starts with a key that cannot verify. *)
Theorem C52_relay_keys : forall file c a, auth_new file c = Some a ->
  forall dir k, guarding a dir (Some k) -> permits k OpVerify.
Proof. exact auth_new_verify. Qed.
Print Assumptions C52_relay_keys.

(** Algorithm names. *)
Theorem C52_algorithms : forall s a, algorithm_parse s = Some a <-> s = algorithm_show a.
Proof. exact algorithm_roundtrip. Qed.
Print Assumptions C52_algorithms.

(** Times on the command line: decimal digits with an optional plus, below 2^63 ("-0" counts as 0). *)
Theorem C52_times : forall s t, parse_timestamp s = Some t <->
  exists ds, is_digits ds /\ t = Z.of_N (decimal ds) /\ (decimal ds < 2 ^ 63)%N /\
    (s = ascii_digits ds \/ s = x2b :: ascii_digits ds \/ (t = 0%Z /\ s = x2d :: ascii_digits ds)).
Proof. exact timestamp_spec. Qed.
Print Assumptions C52_times.

Example C52_example :
  key_sign toy kdemo (toy_payload [x61]) = None /\
  key_sign toy kroot (toy_payload [x61]) = Some [x72; x00; x61] /\
  key_verify toy kroot [x72; x00; x61] = Some (toy_payload [x61]) /\
  parse_timestamp [x31; x32] = Some 12%Z /\ parse_timestamp [x2d; x31] = None /\ algorithm_parse [x48] = None.
Proof. repeat split; reflexivity. Qed.
(** The law asked of the JWT library is satisfiable. *)
Example C52_example_law : exists j : jwt,
  (forall a kid sec q tok, jwt_encode j a kid sec q = Some tok -> jwt_decode j a sec tok = Some q) /\
  key_sign j (key_generate HS256 None (fun n => repeat x6b n)) (toy_payload [x61]) = Some [x61] /\
  length (k_secret (key_generate HS256 None (fun n => repeat x6b n))) = 32.
Proof.
  exists (Jwt (fun _ _ tok => Some (toy_payload tok))
              (fun _ _ _ p => match p with Payload [] None None (Some s) None None => Some s | _ => None end)).
  split; [|split; reflexivity]. cbn. intros a kid sec [[|] [|] [|] [s|] [|] [|]] tok H; try discriminate H. injection H as <-. reflexivity.
Qed.
