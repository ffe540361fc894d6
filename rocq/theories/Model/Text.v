(** The parts of [str] (std) used by the code modelled: splitting, trimming, parsing and printing
    numbers.  A [str] is its UTF-8 bytes; the separators used are ASCII, so working on bytes and on
    characters is the same. *)
From Coq Require Import NArith ZArith List Bool.
From Coq Require Import Init.Byte Strings.Byte.
From Verif.Model Require Import Base Map.
Import ListNotations.

(** [trim_start_matches(c)] *)
Fixpoint trim_start (c : byte) (s : bytes) : bytes :=
  match s with
  | b :: r => if Byte.eqb b c then trim_start c r else s
  | [] => []
  end.

(** [split_once(c)] *)
Fixpoint split_once (c : byte) (s : bytes) : option (bytes * bytes) :=
  match s with
  | [] => None
  | b :: r => if Byte.eqb b c then Some ([], r)
              else match split_once c r with Some (x, y) => Some (b :: x, y) | None => None end
  end.

(** [rsplit_once(c)] *)
Fixpoint rsplit_once (c : byte) (s : bytes) : option (bytes * bytes) :=
  match s with
  | [] => None
  | b :: r => match rsplit_once c r with
              | Some (x, y) => Some (b :: x, y)
              | None => if Byte.eqb b c then Some ([], r) else None
              end
  end.

(** [split(c).collect()]: never empty. *)
Fixpoint split (c : byte) (s : bytes) : list bytes :=
  match s with
  | [] => [[]]
  | b :: r => if Byte.eqb b c then [] :: split c r
              else match split c r with x :: l => (b :: x) :: l | [] => [[b]] end
  end.

(** [join(c)] *)
Fixpoint join (c : byte) (l : list bytes) : bytes :=
  match l with
  | [] => []
  | [x] => x
  | x :: l => x ++ c :: join c l
  end.

(** [strip_suffix] *)
Definition strip_suffix (suf s : bytes) : option bytes :=
  let n := (length s - length suf)%nat in
  if str_eqb (skipn n s) suf then Some (firstn n s) else None.

(** [char::to_digit] for one byte *)
Definition digit (radix : N) (b : byte) : option N :=
  let c := n_of b in
  let v := if ((48 <=? c) && (c <=? 57))%N then Some (c - 48)%N
           else if ((97 <=? c) && (c <=? 122))%N then Some (c - 87)%N
           else if ((65 <=? c) && (c <=? 90))%N then Some (c - 55)%N
           else None in
  match v with Some v => if (v <? radix)%N then Some v else None | None => None end.

Fixpoint digits (radix : N) (acc : N) (s : bytes) : option N :=
  match s with
  | [] => Some acc
  | b :: s => match digit radix b with Some d => digits radix (acc * radix + d)%N s | None => None end
  end.

(** Drop a sign that is followed by something. *)
Definition strip_sign (sign : byte) (s : bytes) : bytes :=
  match s with b :: ((_ :: _) as r) => if Byte.eqb b sign then r else s | _ => s end.

(** [uN::from_str_radix] ([uN::from_str] for radix 10): an optional plus sign and at least one digit;
    [max] is the largest value of the type. *)
Definition parse_uint (radix max : N) (s : bytes) : option N :=
  let s := strip_sign x2b s in
  match s with
  | [] => None
  | _ => match digits radix 0 s with Some v => if (v <=? max)%N then Some v else None | None => None end
  end.

(** [i64::from_str] *)
Definition parse_i64 (s : bytes) : option Z :=
  let r := strip_sign x2d s in
  if Nat.eqb (length r) (length s) then
    match parse_uint 10 (2 ^ 63 - 1) s with Some v => Some (Z.of_N v) | None => None end
  else
    match digits 10 0 r with Some v => if (v <=? 2 ^ 63)%N then Some (- Z.of_N v)%Z else None | None => None end.

(** One digit as printed, upper case. *)
Definition show_digit (d : N) : byte := u8 (if (d <? 10)%N then d + 48 else d + 55).

(** Printing in a radix without padding; [fuel] digits at most. *)
Fixpoint show_loop (radix : N) (fuel : nat) (n : N) (acc : bytes) : bytes :=
  match fuel with
  | O => acc
  | S fuel =>
      let acc := show_digit (n mod radix) :: acc in
      if (n <? radix)%N then acc else show_loop radix fuel (n / radix) acc
  end.
Definition show (radix : N) (n : N) : bytes := show_loop radix (S (N.to_nat (N.log2 n))) n [].

(** [{:02}], [{:02X}] *)
Definition show2 (radix : N) (n : N) : bytes :=
  let s := show radix n in match s with [_] => x30 :: s | _ => s end.
