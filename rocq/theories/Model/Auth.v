(** rs/moq-token/src (keys and tokens) and rs/moq-relay/src/auth.rs.  Signing and checking a JWT is the
    jsonwebtoken crate's: a pair of arbitrary functions. *)
From Coq Require Import NArith ZArith List Bool.
From Coq Require Import Init.Byte Strings.Byte.
From Verif.Model Require Import Base Map Text.
Import ListNotations.

(** * moq-token *)

(** algorithm.rs:9-14 *)
Inductive algorithm := HS256 | HS384 | HS512.

(** algorithm.rs:39-47 [Display] *)
Definition algorithm_show (a : algorithm) : bytes :=
  match a with
  | HS256 => [x48; x53; x32; x35; x36]
  | HS384 => [x48; x53; x33; x38; x34]
  | HS512 => [x48; x53; x35; x31; x32]
  end.
(** algorithm.rs:26-37 [FromStr] *)
Definition algorithm_parse (s : bytes) : option algorithm :=
  if str_eqb s [x48; x53; x32; x35; x36] then Some HS256
  else if str_eqb s [x48; x53; x33; x38; x34] then Some HS384
  else if str_eqb s [x48; x53; x35; x31; x32] then Some HS512
  else None.

(** key.rs:9-16 *)
Inductive operation := OpSign | OpVerify | OpDecrypt | OpEncrypt.
Definition operation_eqb (a b : operation) : bool :=
  match a, b with OpSign, OpSign | OpVerify, OpVerify | OpDecrypt, OpDecrypt | OpEncrypt, OpEncrypt => true | _, _ => false end.

(** key.rs:18-45; the set of operations is a list; the two caches (41-44) hold nothing but a function of
    the secret and are left out. *)
Record key := Key { k_alg : algorithm; k_ops : list operation; k_secret : bytes; k_kid : option bytes }.

(** payload.rs:6-40; times in seconds. *)
Record payload := Payload {
  pl_path : bytes; pl_publish : option bytes; pl_force : option bytes; pl_subscribe : option bytes;
  pl_expires : option Z; pl_issued : option Z }.

(** The jsonwebtoken crate: [decode] checks the signature and, if there is one, the expiration; [encode]. *)
Record jwt := Jwt {
  jwt_decode : algorithm -> bytes -> bytes -> option payload;
  jwt_encode : algorithm -> option bytes -> bytes -> payload -> option bytes }.

(** key.rs:79-99 [verify]; [None]: an error *)
Definition key_verify (j : jwt) (k : key) (token : bytes) : option payload :=
  if existsb (operation_eqb OpVerify) (k_ops k) then jwt_decode j (k_alg k) (k_secret k) token else None.

(** key.rs:101-120 [sign] *)
Definition key_sign (j : jwt) (k : key) (p : payload) : option bytes :=
  if existsb (operation_eqb OpSign) (k_ops k) then jwt_encode j (k_alg k) (k_kid k) (k_secret k) p else None.

(** key.rs:123-150 [generate], given the random bytes (32, 48 or 64 of them: 125-127) *)
Definition secret_size (a : algorithm) : nat := match a with HS256 => 32 | HS384 => 48 | HS512 => 64 end.
Definition key_generate (a : algorithm) (id : option bytes) (random : nat -> bytes) : key :=
  Key a [OpSign; OpVerify] (random (secret_size a)) id.

(** moq-token-cli/src/bin.rs:111-115 [parse_unix_timestamp] *)
Definition parse_timestamp (s : bytes) : option Z :=
  match parse_i64 s with
  | Some t => if (0 <=? t)%Z then Some t else None
  | None => None
  end.

(** * moq-relay/src/auth.rs *)

Definition slash : byte := x2f.
Definition dot_jwt : bytes := [x2e; x6a; x77; x74].

(** auth.rs:6-24 [AuthConfig] *)
Record auth_config := AuthConfig { ac_key : option bytes; ac_path : map_of bytes }.

(** auth.rs:45-48 [Auth] *)
Record auth := Auth { au_key : option key; au_paths : map_of (option key) }.

(** auth.rs:33-43 [parse_key_val] *)
Definition parse_key_val (s : bytes) : option (map_of bytes) :=
  match s with
  | [] => Some []
  | _ => match split_once x3d s with Some (k, v) => Some (put k v []) | None => None end
  end.

(** One key of the configuration (auth.rs:54-67, 70-80); [file] reads and parses a key file. *)
Definition load_key (file : bytes -> option key) (name : option bytes) : option (option key) :=
  match name with
  | None | Some [] => Some None
  | Some path =>
      match file path with
      | Some k => if existsb (operation_eqb OpVerify) (k_ops k) then Some (Some k) else None
      | None => None
      end
  end.
Fixpoint load_paths (file : bytes -> option key) (l : map_of bytes) (acc : map_of (option key)) : option (map_of (option key)) :=
  match l with
  | [] => Some acc
  | (path, name) :: l =>
      match load_key file (Some name) with
      | Some k => load_paths file l (put path k acc)
      | None => None
      end
  end.
(** auth.rs:51-89 [Auth::new]; [None]: an error *)
Definition auth_new (file : bytes -> option key) (c : auth_config) : option auth :=
  match load_key file (ac_key c) with
  | None => None
  | Some k => match load_paths file (ac_path c) [] with Some ps => Some (Auth k ps) | None => None end
  end.

(** auth.rs:92-122 [validate] of a URL with this path (percent-encoded, as [Url::path] gives it);
    [Val None]: an error *)
Definition validate (j : jwt) (a : auth) (url_path : bytes) : res (option payload) :=
  let path := trim_start slash url_path in                                         (* 95 *)
  let (prefix, suffix) := match rsplit_once slash path with Some x => x | None => ([], path) end in   (* 96 *)
  let k := match lookup prefix (au_paths a) with Some k => k | None => au_key a end in                (* 98 *)
  match strip_suffix dot_jwt suffix with
  | Some token =>                                                                  (* 100-109 *)
      match k with
      | None => Panic                                                              (* 101 *)
      | Some k =>
          match key_verify j k token with
          | None => Val None
          | Some t => Val (Some (Payload (prefix ++ pl_path t) (pl_publish t) (pl_force t) (pl_subscribe t) (pl_expires t) (pl_issued t)))
          end
      end
  | None =>
      match k with
      | Some _ => Val None                                                         (* 111-113 *)
      | None => Val (Some (Payload path (Some []) None (Some []) None None))       (* 116-121 *)
      end
  end.
