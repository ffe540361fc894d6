(** rs/moq-token/src/{key,payload}.rs: key files and tokens as bytes; rs/moq-token-cli/src/bin.rs.  serde, serde_with and
    jsonwebtoken (version 9) are not part of the repository: they are modelled by what they are known to do. *)
From Coq Require Import NArith ZArith.
From Coq Require Import Strings.String.
From Coq Require Import List Bool.
From Coq Require Import Init.Byte Strings.Byte.
From Verif.Model Require Import Base Map Text Codec Json Base64 Catalog CatalogJson Auth.
Import ListNotations.
Open Scope N_scope.

(** ** Leaves *)
(** The name of a unit variant of an enum: a string, or an object with it as its one key and null (externally tagged). *)
Definition read_name (v : json) : got bytes :=
  match v with
  | JStr raw => of_option (string_of raw)
  | JObj [(raw, JNull)] => of_option (string_of raw)
  | _ => Refused
  end.
(** algorithm.rs:9-14 and jsonwebtoken's [Algorithm] (those it has beside are refused later, see [read_header]) *)
Definition read_algorithm (v : json) : got algorithm := gbind (read_name v) (fun s => of_option (algorithm_parse s)).
Definition j_algorithm (a : algorithm) : json := j_string (algorithm_show a).
(** key.rs:9-16 *)
Definition operation_show (o : operation) : bytes :=
  match o with OpSign => text "sign" | OpVerify => text "verify" | OpDecrypt => text "decrypt" | OpEncrypt => text "encrypt" end.
Definition operation_parse (s : bytes) : option operation :=
  if str_eqb s (text "sign") then Some OpSign
  else if str_eqb s (text "verify") then Some OpVerify
  else if str_eqb s (text "decrypt") then Some OpDecrypt
  else if str_eqb s (text "encrypt") then Some OpEncrypt
  else None.
Definition read_operation (v : json) : got operation := gbind (read_name v) (fun s => of_option (operation_parse s)).
(** [HashSet], in the order of insertion (in fact there is none) *)
Definition set_insert (l : list operation) (o : operation) : list operation := if existsb (operation_eqb o) l then l else l ++ [o].
Definition read_operations (v : json) : got (list operation) := gmap (fun l => fold_left set_insert l []) (read_list read_operation v).
(** serde_with's [Base64<UrlSafe>] *)
Definition read_base64 (v : json) : got bytes := gbind (read_string v) (fun s => of_option (b64_unpadded s)).
(** A number where the structure wants an i64; serde_json takes "-0" for a floating point number. *)
Definition int_of (t : bytes) : option Z :=
  match t with
  | [] => None
  | b :: d =>
    if Byte.eqb b minus then match uint_of (2 ^ 63) d with Some 0 | None => None | Some n => Some (- Z.of_N n)%Z end
    else match uint_of (2 ^ 63 - 1) t with Some n => Some (Z.of_N n) | None => None end
  end.
Definition read_int64 (v : json) : got Z := match v with JNum t => of_option (int_of t) | _ => Refused end.
Definition show_int (z : Z) : bytes := if (z <? 0)%Z then minus :: show 10 (Z.abs_N z) else show 10 (Z.to_N z).
Definition j_int (z : Z) : json := JNum (show_int z).

(** ** Key files *)
(** key.rs:18-45; [from_str] (58-61), [from_file] (63-67) *)
Definition read_keyfile (v : json) : got key :=
  gbind (struct [fld "alg" read_algorithm; fld "key_ops" read_operations; fld "k" read_base64; fld "kid" (nullable read_string)] 4 v) (fun l =>
  gbind (need l (text "alg") read_algorithm) (fun alg =>
  gbind (need l (text "key_ops") read_operations) (fun ops =>
  gbind (need l (text "k") read_base64) (fun k =>
  gbind (opt l (text "kid") read_string) (fun kid => Got (Key alg ops k kid)))))).
Definition parse_keyfile (s : bytes) : got key := match read_json s with Some v => read_keyfile v | None => Refused end.
(** [to_str] (69-71), [to_file] (73-77) *)
Definition j_keyfile (k : key) : json := JObj (
  member "alg" (j_algorithm (k_alg k)) ++
  member "key_ops" (JArr (map (fun o => j_string (operation_show o)) (k_ops k))) ++
  member "k" (j_string (b64_padded (k_secret k))) ++
  optional "kid" j_string (k_kid k)).
Definition print_keyfile (k : key) : bytes := print (j_keyfile k).

(** ** Claims *)
(** payload.rs:6-40; the struct as a whole has defaults.  As in CatalogJson.v, [nulls] if [skip_serializing_none] after
    [derive] has no effect. *)
Definition read_payload (v : json) : got payload :=
  gbind (struct [fld "path" read_string; fld "pub" (nullable read_string); fld "pub!" (nullable read_string); fld "sub" (nullable read_string);
                 fld "exp" (nullable read_int64); fld "iat" (nullable read_int64)] 0 v) (fun l =>
  gbind (default l (text "path") read_string []) (fun path =>
  gbind (opt l (text "pub") read_string) (fun publish =>
  gbind (opt l (text "pub!") read_string) (fun force =>
  gbind (opt l (text "sub") read_string) (fun subscribe =>
  gbind (opt l (text "exp") read_int64) (fun expires =>
  gbind (opt l (text "iat") read_int64) (fun issued => Got (Payload path publish force subscribe expires issued)))))))).
Definition j_payload (nulls : bool) (p : payload) : json := JObj (
  match pl_path p with [] => [] | s => member "path" (j_string s) end ++
  perhaps nulls "pub" j_string (pl_publish p) ++
  perhaps nulls "pub!" j_string (pl_force p) ++
  perhaps nulls "sub" j_string (pl_subscribe p) ++
  perhaps nulls "exp" j_int (pl_expires p) ++
  perhaps nulls "iat" j_int (pl_issued p)).

(** ** Tokens *)
(** Of jsonwebtoken: the authentication code (HMAC with SHA-256, SHA-384 or SHA-512), whether a value is a key ([Jwk]),
    what it makes of the claims nbf, iss and aud (which [Payload] does not have), of claims that are an array, and of an
    expiration before 1970. *)
Record lib := Lib {
  lib_mac : algorithm -> bytes -> bytes -> bytes;
  lib_jwk : json -> bool;
  lib_others : list (bytes * json) -> bool;
  lib_array : list json -> bool;
  lib_negative : Z -> bool }.
Definition dot : byte := x2e.

(** jsonwebtoken's [Header]: what is read of it *)
Record header := Header {
  h_typ : option bytes; h_alg : algorithm; h_cty : option bytes; h_jku : option bytes; h_jwk : option json; h_kid : option bytes;
  h_x5u : option bytes; h_x5c : option (list bytes); h_x5t : option bytes; h_x5ts : option bytes }.
Section Lib.
Variable L : lib.
Definition read_jwk (v : json) : got json := match v with JNull => Refused | _ => if lib_jwk L v then Got v else Refused end.
Definition read_header (v : json) : got header :=
  gbind (struct [fld "typ" (nullable read_string); fld "alg" read_algorithm; fld "cty" (nullable read_string); fld "jku" (nullable read_string);
                 fld "jwk" (nullable read_jwk); fld "kid" (nullable read_string); fld "x5u" (nullable read_string);
                 fld "x5c" (nullable (read_list read_string)); fld "x5t" (nullable read_string); fld "x5t#S256" (nullable read_string)] 10 v) (fun l =>
  gbind (opt l (text "typ") read_string) (fun typ =>
  gbind (need l (text "alg") read_algorithm) (fun alg =>
  gbind (opt l (text "cty") read_string) (fun cty =>
  gbind (opt l (text "jku") read_string) (fun jku =>
  gbind (opt l (text "jwk") read_jwk) (fun jwk =>
  gbind (opt l (text "kid") read_string) (fun kid =>
  gbind (opt l (text "x5u") read_string) (fun x5u =>
  gbind (opt l (text "x5c") (read_list read_string)) (fun x5c =>
  gbind (opt l (text "x5t") read_string) (fun x5t =>
  gbind (opt l (text "x5t#S256") read_string) (fun x5ts => Got (Header typ alg cty jku jwk kid x5u x5c x5t x5ts)))))))))))).
Definition j_header (alg : algorithm) (kid : option bytes) : json := JObj (
  member "typ" (j_string (text "JWT")) ++ member "alg" (j_algorithm alg) ++ optional "kid" j_string kid).

(** [validate] with key.rs:94-95: a leeway of 60 seconds, no claim required.  [now] in seconds since 1970. *)
Definition leeway : N := 60.
Definition fresh (now : N) (t : Z) : bool := if (t <? 0)%Z then lib_negative L t else negb (Z.to_N t <? now - leeway).
Definition is_other (k : bytes) : bool := str_eqb k (text "nbf") || str_eqb k (text "iss") || str_eqb k (text "aud").
Definition others (v : json) : bool :=
  match v with
  | JArr vs => lib_array L vs
  | JObj es =>
    match filter (fun e => match string_of (fst e) with Some k => is_other k | None => false end) es with
    | [] => true
    | l => lib_others L l
    end
  | _ => true
  end.
Definition claims_ok (now : N) (v : json) (p : payload) : bool :=
  match pl_expires p with Some t => fresh now t | None => true end && others v.

(** [encode]: key.rs:116-118 *)
Definition token_encode (nulls : bool) (alg : algorithm) (kid : option bytes) (secret : bytes) (p : payload) : bytes :=
  let message := b64_encode (print (j_header alg kid)) ++ dot :: b64_encode (print (j_payload nulls p)) in
  message ++ dot :: b64_encode (lib_mac L alg secret message).
(** [decode]: key.rs:97.  The parts are split off at the last two dots; the code is computed again and compared. *)
Definition token_decode (now : N) (alg : algorithm) (secret token : bytes) : option payload :=
  match rsplit_once dot token with
  | None => None
  | Some (message, signature) =>
    match rsplit_once dot message with
    | None => None
    | Some (h, c) =>
      match b64_decode h with
      | None => None
      | Some hs =>
        match read_json hs with
        | None => None
        | Some hv =>
          match read_header hv with
          | Got hd =>
            if str_eqb (algorithm_show (h_alg hd)) (algorithm_show alg) && str_eqb signature (b64_encode (lib_mac L alg secret message)) then
              match b64_decode c with
              | None => None
              | Some cs =>
                match read_json cs with
                | None => None
                | Some v => match read_payload v with Got p => if claims_ok now v p then Some p else None | _ => None end
                end
              end
            else None
          | _ => None
          end
        end
      end
    end
  end.
Definition jwt_at (nulls : bool) (now : N) : jwt := Jwt (token_decode now) (fun a kid s p => Some (token_encode nulls a kid s p)).
End Lib.

(** ** moq-token-cli/src/bin.rs *)
(** L76-96: [sign] prints the token with [println!]; L98-104: [verify] reads all of its standard input. *)
Definition newline : byte := x0a.
Definition cli_sign (j : jwt) (k : key) (p : payload) : option bytes :=
  match key_sign j k p with Some t => Some (t ++ [newline]) | None => None end.
Definition cli_verify (j : jwt) (k : key) (stdin : bytes) : option payload := key_verify j k stdin.
