(** Basic vocabulary shared by all model files. *)
From Coq Require Import NArith ZArith List.
From Coq Require Import Init.Byte Strings.Byte.
Import ListNotations.
Open Scope N_scope.

(** A Rust [u8]. *)
Notation byte := Coq.Init.Byte.byte.

(** A byte string: [Vec<u8>], [Bytes], [&[u8]], and also [String]/[&str], which Rust
    represents by their UTF-8 bytes. *)
Definition bytes : Type := list byte.

(** [n as u8]: Rust's truncating cast. *)
Definition u8 (n : N) : byte :=
  match Byte.of_N (n mod 256) with Some b => b | None => x00 end.

(** [b as u64] *)
Definition n_of (b : byte) : N := Byte.to_N b.

(** Length as an unbounded integer ([len() as u64]). *)
Definition len {A} (l : list A) : N := N.of_nat (length l).

(** [n.to_be_bytes()] for a [w]-byte integer. *)
Fixpoint be_bytes (w : nat) (n : N) : bytes :=
  match w with
  | O => []
  | S w' => be_bytes w' (n / 256) ++ [u8 n]
  end.

(** [uN::from_be_bytes] *)
Fixpoint be_value_acc (acc : N) (bs : bytes) : N :=
  match bs with
  | [] => acc
  | b :: r => be_value_acc (acc * 256 + n_of b) r
  end.
Definition be_value (bs : bytes) : N := be_value_acc 0 bs.

(** Arithmetic mode: debug builds panic on overflow, release builds wrap. *)
Inductive mode := Debug | Release.

(** Result of code that may panic. *)
Inductive res (A : Type) := Val (a : A) | Panic.
Arguments Val {A} a.
Arguments Panic {A}.

(** UTF-8 well-formedness as checked by [String::from_utf8] (std; Unicode table 3-7). *)
Definition in_range (lo hi : N) (b : byte) : bool := (lo <=? n_of b) && (n_of b <=? hi).
Definition cont (b : byte) : bool := in_range 128 191 b.

Fixpoint utf8_valid (bs : bytes) : bool :=
  match bs with
  | [] => true
  | b0 :: r0 =>
    if n_of b0 <? 128 then utf8_valid r0
    else if in_range 194 223 b0 then
      match r0 with b1 :: r1 => cont b1 && utf8_valid r1 | [] => false end
    else if in_range 224 239 b0 then
      match r0 with
      | b1 :: b2 :: r2 =>
        (if n_of b0 =? 224 then in_range 160 191 b1
         else if n_of b0 =? 237 then in_range 128 159 b1
         else cont b1) && cont b2 && utf8_valid r2
      | _ => false
      end
    else if in_range 240 244 b0 then
      match r0 with
      | b1 :: b2 :: b3 :: r3 =>
        (if n_of b0 =? 240 then in_range 144 191 b1
         else if n_of b0 =? 244 then in_range 128 143 b1
         else cont b1) && cont b2 && cont b3 && utf8_valid r3
      | _ => false
      end
    else false
  end.
