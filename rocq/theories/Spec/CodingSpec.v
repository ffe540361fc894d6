(** Specification of the wire coding, independent of the model. *)
From Coq Require Import NArith ZArith List.
From Coq Require Import Init.Byte Strings.Byte.
Import ListNotations.
Open Scope N_scope.

(** Number denoted by a byte string, most significant byte first. *)
Definition big_endian (bs : list byte) : N :=
  fold_left (fun acc b => acc * 256 + Byte.to_N b) bs 0.

(** RFC 9000 section 16: [bs] is the [2^k]-byte form of [v]; the two most significant bits of the
    whole number hold [k]. *)
Definition varint_form (k : N) (v : N) (bs : list byte) : Prop :=
  N.of_nat (length bs) = 2 ^ k /\
  v < 2 ^ (8 * 2 ^ k - 2) /\
  big_endian bs = k * 2 ^ (8 * 2 ^ k - 2) + v.

(** Any of the four forms. *)
Definition is_varint (v : N) (bs : list byte) : Prop := exists k, k < 4 /\ varint_form k v bs.

(** The shortest form. *)
Definition is_shortest_varint (v : N) (bs : list byte) : Prop :=
  exists k, k < 4 /\ varint_form k v bs /\
    forall k', k' < k -> ~ exists bs', varint_form k' v bs'.

(** Number of bytes announced by the first byte of an integer. *)
Definition varint_len_of_first (b : byte) : N := 2 ^ (Byte.to_N b / 64).

(** [p] is a proper prefix of [bs]. *)
Definition strict_prefix {A} (p bs : list A) : Prop := exists x, x <> [] /\ bs = p ++ x.

(** Text (a Rust string) is a sequence of Unicode scalar values; [utf8 cs] is its encoding
    (RFC 3629). *)
Definition scalar (c : N) : Prop := c < 0xD800 \/ (0xE000 <= c /\ c < 0x110000).
Definition is_byte_of (b : byte) (n : N) : Prop := Byte.to_N b = n.
Inductive utf8_char : N -> list byte -> Prop :=
| utf8_1 c b0 : c < 0x80 -> is_byte_of b0 c -> utf8_char c [b0]
| utf8_2 c b0 b1 : 0x80 <= c -> c < 0x800 ->
    is_byte_of b0 (0xC0 + c / 64) -> is_byte_of b1 (0x80 + c mod 64) -> utf8_char c [b0; b1]
| utf8_3 c b0 b1 b2 : 0x800 <= c -> c < 0x10000 -> scalar c ->
    is_byte_of b0 (0xE0 + c / 4096) -> is_byte_of b1 (0x80 + (c / 64) mod 64) ->
    is_byte_of b2 (0x80 + c mod 64) -> utf8_char c [b0; b1; b2]
| utf8_4 c b0 b1 b2 b3 : 0x10000 <= c -> c < 0x110000 ->
    is_byte_of b0 (0xF0 + c / 262144) -> is_byte_of b1 (0x80 + (c / 4096) mod 64) ->
    is_byte_of b2 (0x80 + (c / 64) mod 64) -> is_byte_of b3 (0x80 + c mod 64) ->
    utf8_char c [b0; b1; b2; b3].
Inductive utf8_text : list N -> list byte -> Prop :=
| utf8_nil : utf8_text [] []
| utf8_cons c cs p bs : utf8_char c p -> utf8_text cs bs -> utf8_text (c :: cs) (p ++ bs).
Definition is_text (bs : list byte) : Prop := exists cs, utf8_text cs bs.
