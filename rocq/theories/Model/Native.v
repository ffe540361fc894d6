(** Certificates and URLs: moq-native/src/server.rs, moq-native/src/client.rs, moq-relay/src/web.rs L38-43,
    moq-relay/src/main.rs L42-50.  TLS, QUIC, HTTP and DNS are not modelled; of rustls and webpki only what the code
    asks them. *)
From Coq Require Import NArith List Bool.
From Coq Require Import Init.Byte Strings.Byte.
From Verif.Model Require Import Base Map Text Auth.
Import ListNotations.

Section Native.
(** [sha]: SHA-256 (ring).  [names]: what webpki reads in a leaf certificate: nothing if it cannot be parsed, else for
    which names it is valid.  [dns]: [webpki::DnsNameRef::try_from_ascii_str] accepts the name.  [trusted]: rustls'
    verifier with the configured roots accepts the leaf (with its chain) for the host. *)
Context (sha : bytes -> bytes) (names : bytes -> option (bytes -> bool)) (dns : bytes -> bool)
        (trusted : bytes -> bytes -> bool).

(** ** The server *)

(** server.rs L225-248 [load], of one entry of the configuration: the leaf of the chain.  [chain]: the certificates in
    the PEM file, [None] if it cannot be read; [key]: the key file can be read. *)
Definition load (chain : option (list bytes)) (key : bool) : option bytes :=
  match chain with
  | Some (leaf :: _) => if key then Some leaf else None
  | _ => None
  end.
Fixpoint load_all (l : list (option (list bytes) * bool)) : option (list bytes) :=
  match l with
  | [] => Some []
  | (c, k) :: l =>
    match load c k with
    | None => None
    | Some leaf => match load_all l with None => None | Some r => Some (leaf :: r) end
    end
  end.
(** server.rs L92-99; [generated]: the certificate of [generate] (L250-271), if one is asked for. *)
Definition server_certs (l : list (option (list bytes) * bool)) (generated : option bytes) : option (list bytes) :=
  match load_all l with
  | None => None
  | Some r => Some (r ++ match generated with Some c => [c] | None => [] end)
  end.

(** [hex::encode] *)
Definition hex_digit (n : N) : byte := u8 (if (n <? 10)%N then 48 + n else 87 + n).
Definition hex (b : bytes) : bytes := flat_map (fun x => [hex_digit (n_of x / 16); hex_digit (n_of x mod 16)]) b.

(** server.rs L274-283 [fingerprints] *)
Definition fingerprints (certs : list bytes) : list bytes := map (fun c => hex (sha c)) certs.

(** server.rs L290-299, the loop; [Panic]: the [expect] of L294. *)
Fixpoint first_valid (certs : list bytes) (name : bytes) : res (option bytes) :=
  match certs with
  | [] => Val None
  | c :: certs =>
    match names c with
    | None => Panic
    | Some valid => if valid name then Val (Some c) else first_valid certs name
    end
  end.
(** server.rs L286-302 [best_certificate] *)
Definition best (certs : list bytes) (sni : option bytes) : res (option bytes) :=
  match sni with
  | Some name => if dns name then first_valid certs name else Val None
  | None => Val None
  end.
(** server.rs L306-316 [resolve] *)
Definition resolve (certs : list bytes) (sni : option bytes) : res (option bytes) :=
  match best certs sni with
  | Panic => Panic
  | Val (Some c) => Val (Some c)
  | Val None => Val (hd_error certs)
  end.

(** web.rs L38-43: the page /certificate.sha256; [Panic]: the [expect]. *)
Definition page (certs : list bytes) : res bytes :=
  match fingerprints certs with f :: _ => Val f | [] => Panic end.

(** ** The client *)

(** [Url::scheme], always in lower case. *)
Definition s_http : bytes := ["h"; "t"; "t"; "p"]%byte.
Definition s_https : bytes := ["h"; "t"; "t"; "p"; "s"]%byte.
Definition s_moql : bytes := ["m"; "o"; "q"; "l"]%byte.
(** moq/src/lib.rs L46, moq/src/message/versions.rs L50-51 *)
Definition alpn : bytes := ["m"; "o"; "q"; "l"; "-"; "0"; "0"]%byte.

(** [str::trim], of the ASCII spaces only. *)
Definition space (b : byte) : bool := ((9 <=? n_of b) && (n_of b <=? 13))%N || (n_of b =? 32)%N.
Fixpoint trim_left (s : bytes) : bytes := match s with b :: r => if space b then trim_left r else s | [] => [] end.
Definition trim (s : bytes) : bytes := rev (trim_left (rev (trim_left s))).

(** [hex::decode]: [digit] as in [Text]; an odd length is an error. *)
Fixpoint unhex (s : bytes) : option bytes :=
  match s with
  | [] => Some []
  | a :: b :: s =>
    match digit 16 a, digit 16 b, unhex s with
    | Some x, Some y, Some r => Some (u8 (x * 16 + y) :: r)
    | _, _, _ => None
    end
  | _ => None
  end.

(** What the client checks the server's certificate with. *)
Inductive verifier := Roots | Anything | Pinned (fingerprint : bytes).
Definition accepts (v : verifier) (leaf host : bytes) : bool :=
  match v with
  | Roots => trusted leaf host
  | Anything => true                                   (* client.rs L203-212 *)
  | Pinned f => str_eqb (sha leaf) f                   (* client.rs L251-265 *)
  end.

(** client.rs L135-195 [connect], of the parts that decide with whom it talks.  [insecure]: [tls.disable_verify];
    [fetched]: the body of http://host/certificate.sha256; [presented]: the server's leaf certificate.
    [Connected raw]: whether it is plain QUIC rather than WebTransport. *)
Inductive conn := BadScheme | NoFingerprint | Refused | Connected (raw : bool).
Definition verifier_of (insecure : bool) (s : bytes) (fetched : option bytes) : option verifier :=
  if str_eqb s s_http then                                                       (* L148-166 *)
    match fetched with
    | None => None
    | Some t => match unhex (trim t) with Some f => Some (Pinned f) | None => None end
    end
  else Some (if insecure then Anything else Roots).                              (* L106-111 *)
Definition connect (insecure : bool) (s : bytes) (fetched : option bytes) (presented host : bytes) : res conn :=
  match verifier_of insecure s fetched with
  | None => Val NoFingerprint
  | Some v =>
    let s := if str_eqb s s_http then s_https else s in                          (* L167 *)
    if negb (str_eqb s s_https || str_eqb s s_moql) then Val BadScheme           (* L170-174 *)
    else if negb (accepts v presented host) then Val Refused                     (* L186 *)
    else if str_eqb s s_https then Val (Connected false)                         (* L189-193 *)
    else if str_eqb s alpn then Val (Connected true)
    else Panic
  end.

(** ** The URL of a session *)

(** Bytes that may occur in a server name (rustls parses it as a DNS name). *)
Definition dns_byte (b : byte) : bool :=
  let c := n_of b in
  ((48 <=? c) && (c <=? 57) || (65 <=? c) && (c <=? 90) || (97 <=? c) && (c <=? 122) || (c =? 45) || (c =? 46) || (c =? 95))%N.

(** server.rs L166-206: the path of the URL the relay is told.  [raw]: the ALPN is [alpn] (L198-202), then the URL is
    "moql://" and the server name, whose path is empty; parsing is modelled for server names only ([Panic]: the [unwrap] of
    L200).  Otherwise the URL of the WebTransport request. *)
Definition session_path (raw : bool) (sni : option bytes) (asked : bytes) : res bytes :=
  if raw then
    let host := match sni with Some h => h | None => [] end in                   (* L174 *)
    if forallb dns_byte host then Val [] else Panic
  else Val asked.

(** main.rs L42-43, for a client that asked for the URL path [asked]. *)
Definition admit (j : jwt) (a : auth) (raw : bool) (sni : option bytes) (asked : bytes) : res (option payload) :=
  match session_path raw sni asked with
  | Panic => Panic
  | Val p => validate j a p
  end.
End Native.
