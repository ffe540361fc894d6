(** Base64 with the URL-safe alphabet (RFC 4648, section 5), as the base64 crate (version 0.22) writes and reads it.  The crate
    is not part of the repository: this file models what rs/moq-token/src/key.rs relies on. *)
From Coq Require Import NArith Arith List Bool.
From Coq Require Import Init.Byte Strings.Byte.
From Verif.Model Require Import Base.
Import ListNotations.
Open Scope N_scope.

(** The alphabet: A-Z a-z 0-9 - _ *)
Definition b64_char (n : N) : byte :=
  if n <? 26 then u8 (65 + n)
  else if n <? 52 then u8 (71 + n)
  else if n <? 62 then u8 (n - 4)
  else if n =? 62 then x2d
  else x5f.
Definition b64_value (b : byte) : option N :=
  let c := n_of b in
  if (65 <=? c) && (c <=? 90) then Some (c - 65)
  else if (97 <=? c) && (c <=? 122) then Some (c - 71)
  else if (48 <=? c) && (c <=? 57) then Some (c + 4)
  else if c =? 45 then Some 62
  else if c =? 95 then Some 63
  else None.

(** Without padding *)
Fixpoint b64_encode (s : bytes) : bytes :=
  match s with
  | [] => []
  | [a] => [b64_char (n_of a / 4); b64_char (n_of a mod 4 * 16)]
  | [a; b] => [b64_char (n_of a / 4); b64_char (n_of a mod 4 * 16 + n_of b / 16); b64_char (n_of b mod 16 * 4)]
  | a :: b :: c :: r =>
    b64_char (n_of a / 4) :: b64_char (n_of a mod 4 * 16 + n_of b / 16) ::
    b64_char (n_of b mod 16 * 4 + n_of c / 64) :: b64_char (n_of c mod 64) :: b64_encode r
  end.
(** The bits that are left over must be zero ([decode_allow_trailing_bits] is off). *)
Fixpoint b64_bytes (vs : list N) : option bytes :=
  match vs with
  | [] => Some []
  | [_] => None
  | [v; w] => if w mod 16 =? 0 then Some [u8 (v * 4 + w / 16)] else None
  | [v; w; x] => if x mod 4 =? 0 then Some [u8 (v * 4 + w / 16); u8 (w mod 16 * 16 + x / 4)] else None
  | v :: w :: x :: y :: r =>
    match b64_bytes r with
    | Some l => Some (u8 (v * 4 + w / 16) :: u8 (w mod 16 * 16 + x / 4) :: u8 (x mod 4 * 64 + y) :: l)
    | None => None
    end
  end.
Fixpoint b64_values (s : bytes) : option (list N) :=
  match s with
  | [] => Some []
  | b :: r => match b64_value b, b64_values r with Some v, Some l => Some (v :: l) | _, _ => None end
  end.
Definition b64_decode (s : bytes) : option bytes := match b64_values s with Some vs => b64_bytes vs | None => None end.

(** With padding: written in full; when read, any part of it may be missing ([DecodePaddingMode::Indifferent]). *)
Definition equals : byte := x3d.
Definition b64_missing (n : nat) : nat := ((4 - n mod 4) mod 4)%nat.
Definition b64_padded (s : bytes) : bytes := let t := b64_encode s in t ++ repeat equals (b64_missing (List.length t)).
Fixpoint unpad (s : bytes) : bytes * nat :=
  match s with
  | [] => ([], O)
  | b :: r => let (t, n) := unpad r in
    match t with
    | [] => if Byte.eqb b equals then ([], S n) else ([b], n)
    | _ => (b :: t, n)
    end
  end.
Definition b64_unpadded (s : bytes) : option bytes :=
  let (t, n) := unpad s in if Nat.leb n (b64_missing (List.length t)) then b64_decode t else None.
