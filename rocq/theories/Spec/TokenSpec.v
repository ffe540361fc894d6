(** What key files and tokens say. *)
From Coq Require Import NArith ZArith.
From Coq Require Import Strings.String.
From Coq Require Import List Bool.
From Coq Require Import Init.Byte Strings.Byte.
From Verif.Model Require Import Base Codec Json Catalog CatalogJson Auth Token.
From Verif.Spec Require Import CodingSpec JsonSpec CatalogJsonSpec.
Import ListNotations.
Open Scope N_scope.

(** ** Base64 (RFC 4648, section 5): the same bits, six in each character *)
Definition alphabet : bytes := text "ABCDEFGHIJKLMNOPQRSTUVWXYZabcdefghijklmnopqrstuvwxyz0123456789-_".
(** The [n] lowest bits of [x], highest first. *)
Fixpoint bits (n : nat) (x : N) : list bool := match n with O => [] | S n => N.testbit x (N.of_nat n) :: bits n x end.
(** Fewer than six zeros are filled in at the end. *)
Definition base64 (t s : bytes) : Prop := exists vs zeros,
  Forall2 (fun c v => nth_error alphabet (N.to_nat v) = Some c) t vs /\ (zeros < 6)%nat /\
  flat_map (bits 6) vs = flat_map (fun b => bits 8 (n_of b)) s ++ repeat false zeros.
(** With padding to a multiple of four, or a part of it. *)
Definition padded64 (t s : bytes) : Prop := exists u n,
  t = u ++ repeat "="%byte n /\ base64 u s /\ (n = 0 \/ (n < 4 /\ exists m, List.length u + n <= 4 * m /\ 4 * m < List.length u + 4))%nat.

(** ** Key files *)
Definition is_name (v : json) (s : bytes) : Prop := is_string v s \/ exists raw, v = JObj [(raw, JNull)] /\ text_of raw s.
Definition algorithm_name (a : algorithm) : string := match a with HS256 => "HS256" | HS384 => "HS384" | HS512 => "HS512" end.
Definition is_algorithm (v : json) (a : algorithm) : Prop := is_name v (text (algorithm_name a)).
Definition operation_name (o : operation) : string :=
  match o with OpSign => "sign" | OpVerify => "verify" | OpDecrypt => "decrypt" | OpEncrypt => "encrypt" end.
Definition is_operation (v : json) (o : operation) : Prop := is_name v (text (operation_name o)).
(** The set of the elements of a list, each in the place of its first occurrence. *)
Fixpoint distinct (l : list operation) : list operation :=
  match l with [] => [] | o :: r => o :: filter (fun x => negb (operation_eqb o x)) (distinct r) end.
Definition is_operations (v : json) (l : list operation) : Prop := exists l', is_list is_operation v l' /\ l = distinct l'.
Definition is_base64 (v : json) (b : bytes) : Prop := exists s, is_string v s /\ padded64 s b.
Definition keyfile_names := map text ["alg"; "key_ops"; "k"; "kid"]%string.
Definition is_keyfile (v : json) (k : key) : Prop :=
  let n := keyfile_names in
  structure n 4 v /\ has n v "alg" is_algorithm (k_alg k) /\ has n v "key_ops" is_operations (k_ops k) /\
  has n v "k" is_base64 (k_secret k) /\ may n v "kid" is_string (k_kid k).
(** The operations are a set, the identifier is text. *)
Definition key_value (k : key) : Prop := NoDup (k_ops k) /\ (forall s, k_kid k = Some s -> is_text s).

(** ** Claims *)
Definition is_int64 (v : json) (z : Z) : Prop := exists t, v = JNum t /\
  ((exists n, counts t n /\ n < 2 ^ 63 /\ z = Z.of_N n) \/
   (exists d n, t = "-"%byte :: d /\ counts d n /\ 0 < n <= 2 ^ 63 /\ z = (- Z.of_N n)%Z)).
Definition payload_names := map text ["path"; "pub"; "pub!"; "sub"; "exp"; "iat"]%string.
Definition is_payload (v : json) (p : payload) : Prop :=
  let n := payload_names in
  structure n 0 v /\ or_else n v "path" is_string [] (pl_path p) /\ may n v "pub" is_string (pl_publish p) /\
  may n v "pub!" is_string (pl_force p) /\ may n v "sub" is_string (pl_subscribe p) /\
  may n v "exp" is_int64 (pl_expires p) /\ may n v "iat" is_int64 (pl_issued p).
Definition is_time (t : Z) : Prop := (- 2 ^ 63 <= t < 2 ^ 63)%Z.
Definition payload_value (p : payload) : Prop :=
  is_text (pl_path p) /\ (forall s, pl_publish p = Some s -> is_text s) /\ (forall s, pl_force p = Some s -> is_text s) /\
  (forall s, pl_subscribe p = Some s -> is_text s) /\ (forall t, pl_expires p = Some t -> is_time t) /\ (forall t, pl_issued p = Some t -> is_time t).

(** ** Tokens *)
Definition is_jwk (L : lib) (v w : json) : Prop := v = w /\ v <> JNull /\ lib_jwk L v = true.
Definition header_names := map text ["typ"; "alg"; "cty"; "jku"; "jwk"; "kid"; "x5u"; "x5c"; "x5t"; "x5t#S256"]%string.
Definition is_header (L : lib) (v : json) (h : header) : Prop :=
  let n := header_names in
  structure n 10 v /\ may n v "typ" is_string (h_typ h) /\ has n v "alg" is_algorithm (h_alg h) /\ may n v "cty" is_string (h_cty h) /\
  may n v "jku" is_string (h_jku h) /\ may n v "jwk" (is_jwk L) (h_jwk h) /\ may n v "kid" is_string (h_kid h) /\
  may n v "x5u" is_string (h_x5u h) /\ may n v "x5c" (is_list is_string) (h_x5c h) /\ may n v "x5t" is_string (h_x5t h) /\
  may n v "x5t#S256" is_string (h_x5ts h).
(** The claims that a payload does not have but the library looks at. *)
Definition foreign (k : bytes) : Prop := In k (map text ["nbf"; "iss"; "aud"]%string).
Definition plain_claims (v : json) : Prop :=
  exists es, v = JObj es /\ forall raw x k, In (raw, x) es -> text_of raw k -> ~ foreign k.
(** At [now] seconds since 1970 the token has not been expired for more than [late] seconds. *)
Definition unexpired (late now : N) (p : payload) : Prop := forall t, pl_expires p = Some t -> (Z.of_N now <= t + Z.of_N late)%Z.
Definition nonnegative (p : payload) : Prop := forall t, pl_expires p = Some t -> (0 <= t)%Z.
(** What the library makes of the expiration: a leeway of 60 seconds, and whatever it does with times before 1970. *)
Definition current (L : lib) (now : N) (p : payload) : Prop := forall t, pl_expires p = Some t ->
  ((0 <= t)%Z /\ (Z.of_N now <= t + 60)%Z) \/ ((t < 0)%Z /\ lib_negative L t = true).

(** [token] has these parts, and the last is the code of the others. *)
Definition authentic (L : lib) (alg : algorithm) (secret token h c : bytes) : Prop := exists s,
  token = h ++ "."%byte :: c ++ "."%byte :: s /\ base64 s (lib_mac L alg secret (h ++ "."%byte :: c)).
(** [t] is the base64 of a JSON text of which [P] holds. *)
Definition encodes (t : bytes) (P : json -> Prop) : Prop := exists s v, base64 t s /\ document v s /\ P v.
