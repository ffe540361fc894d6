(** JSON text as serde_json (version 1) reads and writes it.  serde_json is not part of the repository: this file models what
    rs/hang/src/catalog/root.rs:34-60, rs/hang/src/feedback/root.rs:27-52 and rs/moq-token/src/key.rs:58-77 rely on.
    serde_json reads text and structure in one pass; here the text is first read into a tree and the structure is read from
    the tree.  The values are the same, but of two faults in one text another one may be met first.  A value that the
    structure ignores is only checked for its syntax ([ignore_value]); therefore strings and numbers stay in the tree as they
    are spelled. *)
From Coq Require Import NArith List Bool.
From Coq Require Import Init.Byte Strings.Byte.
From Verif.Model Require Import Base Map Text Codec.
Import ListNotations.
Open Scope N_scope.

(** [JNum], [JStr], and the keys of [JObj]: the spelling, without the quotes. *)
Inductive json :=
| JNull
| JBool (b : bool)
| JNum (t : bytes)
| JStr (raw : bytes)
| JArr (l : list json)
| JObj (l : list (bytes * json)).

Definition quote : byte := x22.
Definition backslash : byte := x5c.
Definition comma : byte := x2c.
Definition colon : byte := x3a.
Definition lbrack : byte := x5b.
Definition rbrack : byte := x5d.
Definition lbrace : byte := x7b.
Definition rbrace : byte := x7d.
Definition minus : byte := x2d.
Definition plus : byte := x2b.
Definition zero : byte := x30.

(** [parse_whitespace] *)
Definition is_ws (b : byte) : bool := Byte.eqb b x20 || Byte.eqb b x09 || Byte.eqb b x0a || Byte.eqb b x0d.
Fixpoint skip_ws (s : bytes) : bytes := match s with b :: r => if is_ws b then skip_ws r else s | [] => [] end.

Definition is_digit (b : byte) : bool := (48 <=? n_of b) && (n_of b <=? 57).
Fixpoint span (p : byte -> bool) (s : bytes) : bytes * bytes :=
  match s with
  | b :: r => if p b then let (x, y) := span p r in (b :: x, y) else ([], s)
  | [] => ([], [])
  end.

(** [parse_integer], [parse_number], [parse_decimal], [parse_exponent]: the spelling of a number.  What follows a leading
    zero is left to the caller, who meets a digit where a value should end. *)
Definition read_sign (s : bytes) : bytes * bytes :=
  match s with b :: r => if Byte.eqb b minus then ([minus], r) else ([], s) | [] => ([], []) end.
Definition read_int (s : bytes) : option (bytes * bytes) :=
  match s with
  | b :: r => if Byte.eqb b zero then Some ([zero], r) else if is_digit b then Some (span is_digit s) else None
  | [] => None
  end.
Definition read_frac (s : bytes) : option (bytes * bytes) :=
  match s with
  | b :: r => if Byte.eqb b dot then match span is_digit r with ([], _) => None | (d, r') => Some (dot :: d, r') end else Some ([], s)
  | [] => Some ([], [])
  end.
Definition is_e (b : byte) : bool := Byte.eqb b x65 || Byte.eqb b x45.
Definition read_exp_sign (s : bytes) : bytes * bytes :=
  match s with b :: r => if Byte.eqb b minus || Byte.eqb b plus then ([b], r) else ([], s) | [] => ([], []) end.
Definition read_exp (s : bytes) : option (bytes * bytes) :=
  match s with
  | b :: r => if is_e b then
      let (g, r1) := read_exp_sign r in
      match span is_digit r1 with ([], _) => None | (d, r2) => Some (b :: g ++ d, r2) end
    else Some ([], s)
  | [] => Some ([], [])
  end.
Definition read_number (s : bytes) : option (bytes * bytes) :=
  let (g, s1) := read_sign s in
  match read_int s1 with
  | None => None
  | Some (i, s2) =>
    match read_frac s2 with
    | None => None
    | Some (f, s3) => match read_exp s3 with None => None | Some (e, s4) => Some (g ++ i ++ f ++ e, s4) end
    end
  end.

(** [ignore_str], [ignore_escape], and the part of [parse_str] that does not depend on what is done with the characters: up
    to the closing quote. *)
Definition is_hex (b : byte) : bool := match digit 16 b with Some _ => true | None => false end.
Definition simple_escape (b : byte) : option byte :=
  if Byte.eqb b quote then Some quote
  else if Byte.eqb b backslash then Some backslash
  else if Byte.eqb b x2f then Some x2f                             (* / *)
  else if Byte.eqb b x62 then Some x08                             (* b *)
  else if Byte.eqb b x66 then Some x0c                             (* f *)
  else if Byte.eqb b x6e then Some x0a                             (* n *)
  else if Byte.eqb b x72 then Some x0d                             (* r *)
  else if Byte.eqb b x74 then Some x09                             (* t *)
  else None.
Definition is_plain (b : byte) : bool := (32 <=? n_of b) && negb (Byte.eqb b quote) && negb (Byte.eqb b backslash).
Definition push (p : bytes) (x : option (bytes * bytes)) : option (bytes * bytes) :=
  match x with Some (a, r) => Some (p ++ a, r) | None => None end.
Fixpoint read_raw (s : bytes) : option (bytes * bytes) :=
  match s with
  | [] => None
  | b :: r =>
    if Byte.eqb b quote then Some ([], r)
    else if Byte.eqb b backslash then
      match r with
      | e :: r1 =>
        if Byte.eqb e x75 then
          match r1 with
          | h1 :: h2 :: h3 :: h4 :: r2 =>
            if is_hex h1 && is_hex h2 && is_hex h3 && is_hex h4 then push [b; e; h1; h2; h3; h4] (read_raw r2) else None
          | _ => None
          end
        else match simple_escape e with Some _ => push [b; e] (read_raw r1) | None => None end
      | [] => None
      end
    else if is_plain b then push [b] (read_raw r) else None
  end.

(** Values.  [n]: a bound on the recursion, never reached ([C112_text]).  serde_json's limit of 128 nested values is not
    reached either: the structures read here nest at most eight deep, and [ignore_value] has none. *)
Fixpoint expect (p s : bytes) : option bytes :=
  match p, s with
  | [], _ => Some s
  | a :: p', b :: s' => if Byte.eqb a b then expect p' s' else None
  | _, [] => None
  end.
Definition after {A} (v : A) (x : option bytes) : option (A * bytes) := match x with Some r => Some (v, r) | None => None end.
Fixpoint read_value (n : nat) (s : bytes) : option (json * bytes) :=
  match n with
  | O => None
  | S n =>
    match skip_ws s with
    | [] => None
    | b :: r =>
      if Byte.eqb b x6e then after JNull (expect [x75; x6c; x6c] r)
      else if Byte.eqb b x74 then after (JBool true) (expect [x72; x75; x65] r)
      else if Byte.eqb b x66 then after (JBool false) (expect [x61; x6c; x73; x65] r)
      else if Byte.eqb b quote then match read_raw r with Some (t, r') => Some (JStr t, r') | None => None end
      else if Byte.eqb b lbrack then
        match expect [rbrack] (skip_ws r) with
        | Some r' => Some (JArr [], r')
        | None => match read_elements n r with Some (l, r') => Some (JArr l, r') | None => None end
        end
      else if Byte.eqb b lbrace then
        match expect [rbrace] (skip_ws r) with
        | Some r' => Some (JObj [], r')
        | None => match read_members n r with Some (l, r') => Some (JObj l, r') | None => None end
        end
      else match read_number (b :: r) with Some (t, r') => Some (JNum t, r') | None => None end
    end
  end
with read_elements (n : nat) (s : bytes) : option (list json * bytes) :=
  match n with
  | O => None
  | S n =>
    match read_value n s with
    | None => None
    | Some (v, r) =>
      match expect [comma] (skip_ws r) with
      | Some r' => match read_elements n r' with Some (l, r'') => Some (v :: l, r'') | None => None end
      | None => after [v] (expect [rbrack] (skip_ws r))
      end
    end
  end
with read_members (n : nat) (s : bytes) : option (list (bytes * json) * bytes) :=
  match n with
  | O => None
  | S n =>
    match expect [quote] (skip_ws s) with
    | None => None
    | Some r =>
      match read_raw r with
      | None => None
      | Some (k, r1) =>
        match expect [colon] (skip_ws r1) with
        | None => None
        | Some r2 =>
          match read_value n r2 with
          | None => None
          | Some (v, r3) =>
            match expect [comma] (skip_ws r3) with
            | Some r4 => match read_members n r4 with Some (l, r5) => Some ((k, v) :: l, r5) | None => None end
            | None => after [(k, v)] (expect [rbrace] (skip_ws r3))
            end
          end
        end
      end
    end
  end.

(** [from_slice], [from_str], [from_reader]: one value, and nothing but space after it. *)
Definition read_json (s : bytes) : option json :=
  match read_value (2 * List.length s + 2) s with
  | Some (v, r) => match skip_ws r with [] => Some v | _ => None end
  | None => None
  end.

(** [parse_str] with [validate]: the characters meant by a spelling that [read_raw] accepted.  [parse_escape],
    [parse_unicode_escape]: surrogates must come in pairs; then the whole must be UTF-8. *)
Definition hex4 (h1 h2 h3 h4 : byte) : N :=
  let d h := match digit 16 h with Some n => n | None => 0 end in ((d h1 * 16 + d h2) * 16 + d h3) * 16 + d h4.
Definition put (p : bytes) (x : option bytes) : option bytes := match x with Some a => Some (p ++ a) | None => None end.
Fixpoint unescape (s : bytes) : option bytes :=
  match s with
  | [] => Some []
  | b :: r =>
    if Byte.eqb b backslash then
      match r with
      | e :: r1 =>
        if Byte.eqb e x75 then
          match r1 with
          | h1 :: h2 :: h3 :: h4 :: r2 =>
            let c := hex4 h1 h2 h3 h4 in
            if (0xDC00 <=? c) && (c <=? 0xDFFF) then None
            else if (0xD800 <=? c) && (c <=? 0xDBFF) then
              match r2 with
              | b' :: e' :: g1 :: g2 :: g3 :: g4 :: r3 =>
                if Byte.eqb b' backslash && Byte.eqb e' x75 then
                  let d := hex4 g1 g2 g3 g4 in
                  if (0xDC00 <=? d) && (d <=? 0xDFFF) then put (utf8 (0x10000 + (c - 0xD800) * 0x400 + (d - 0xDC00))) (unescape r3)
                  else None
                else None
              | _ => None
              end
            else put (utf8 c) (unescape r2)
          | _ => None
          end
        else match simple_escape e with Some c => put [c] (unescape r1) | None => None end
      | [] => None
      end
    else put [b] (unescape r)
  end.
Definition string_of (raw : bytes) : option bytes :=
  match unescape raw with Some s => if utf8_valid s then Some s else None | None => None end.

(** A number where the structure wants an unsigned integer not above [max]: no sign, fraction or exponent (those are read
    as other kinds of number, which integers refuse). *)
Definition uint_of (max : N) (t : bytes) : option N :=
  if forallb is_digit t then parse_uint 10 max t else None.

(** [to_string], [to_vec], [to_writer]: compact.  [format_escaped_str]: the escapes used. *)
Definition escape_byte (b : byte) : bytes :=
  if Byte.eqb b quote then [backslash; quote]
  else if Byte.eqb b backslash then [backslash; backslash]
  else if Byte.eqb b x08 then [backslash; x62]
  else if Byte.eqb b x09 then [backslash; x74]
  else if Byte.eqb b x0a then [backslash; x6e]
  else if Byte.eqb b x0c then [backslash; x66]
  else if Byte.eqb b x0d then [backslash; x72]
  else if n_of b <? 32 then [backslash; x75; x30; x30] ++ show2x b
  else [b].
Definition escape (s : bytes) : bytes := flat_map escape_byte s.
Fixpoint sep (l : list bytes) : bytes :=
  match l with [] => [] | [x] => x | x :: r => x ++ [comma] ++ sep r end.
Fixpoint print (v : json) : bytes :=
  match v with
  | JNull => [x6e; x75; x6c; x6c]
  | JBool true => [x74; x72; x75; x65]
  | JBool false => [x66; x61; x6c; x73; x65]
  | JNum t => t
  | JStr raw => [quote] ++ raw ++ [quote]
  | JArr l => [lbrack] ++ sep (map print l) ++ [rbrack]
  | JObj l => [lbrace] ++ sep (map (fun m => [quote] ++ fst m ++ [quote; colon] ++ print (snd m)) l) ++ [rbrace]
  end.
