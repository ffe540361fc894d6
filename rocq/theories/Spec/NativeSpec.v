(** What the operator of a relay and its users rely on when connecting. *)
From Coq Require Import NArith List Bool.
From Coq Require Import Init.Byte Strings.Byte.
From Verif.Model Require Import Base Map Text Auth Native.
Import ListNotations.

(** A byte written as two hexadecimal digits, of any case. *)
Definition nibble (d : byte) (v : N) : Prop :=
  (exists k, v = k /\ (k < 10)%N /\ n_of d = (48 + k)%N) \/
  (exists k, v = (10 + k)%N /\ (k < 6)%N /\ (n_of d = 97 + k \/ n_of d = 65 + k)%N).
Inductive hexes : bytes -> bytes -> Prop :=
| hexes_nil : hexes [] []
| hexes_cons a b x y t r : nibble a x -> nibble b y -> hexes t r -> hexes (a :: b :: t) (u8 (x * 16 + y) :: r).
(** [t] between spaces. *)
Definition padded (s t : bytes) : Prop :=
  exists l r, s = l ++ t ++ r /\ Forall (fun b => space b = true) (l ++ r) /\
  (forall b x, t = b :: x -> space b = false) /\ (forall b x, t = x ++ [b] -> space b = false).

(** A relay whose configuration yields these certificates, and a client that asks for it by this name.  [sent]: what the
    client puts in its hello: the name, or nothing if it is an address. *)
Definition visits (names : bytes -> option (bytes -> bool)) (dns : bytes -> bool) (certs : list bytes) (sent : option bytes)
  (leaf : bytes) : Prop := resolve names dns certs sent = Val (Some leaf).
Definition parsable (names : bytes -> option (bytes -> bool)) (c : bytes) : Prop := names c <> None.
Definition valid_for (names : bytes -> option (bytes -> bool)) (c n : bytes) : Prop :=
  exists f, names c = Some f /\ f n = true.
