(** The grammar of JSON (RFC 8259), and the text that a string of it means. *)
From Coq Require Import NArith List Bool.
From Coq Require Import Init.Byte Strings.Byte.
From Verif.Model Require Import Base Json.
From Verif.Spec Require Import CodingSpec.
Import ListNotations.
Open Scope N_scope.

Definition spaces (w : bytes) : Prop := Forall (fun b => In b [x20; x09; x0a; x0d]) w.

(** RFC 8259, section 6 *)
Definition numerals (d : bytes) : Prop := d <> [] /\ Forall (fun b => In b ["0"; "1"; "2"; "3"; "4"; "5"; "6"; "7"; "8"; "9"]%byte) d.
Definition integer (i : bytes) : Prop := i = ["0"%byte] \/ (numerals i /\ hd_error i <> Some "0"%byte).
Definition fraction (f : bytes) : Prop := f = [] \/ exists d, f = "."%byte :: d /\ numerals d.
Definition exponent (e : bytes) : Prop :=
  e = [] \/ exists c g d, e = c :: g ++ d /\ In c ["e"; "E"]%byte /\ In g [[]; ["-"]; ["+"]]%byte /\ numerals d.
Definition json_number (t : bytes) : Prop := exists g i f e,
  t = g ++ i ++ f ++ e /\ In g [[]; ["-"%byte]] /\ integer i /\ fraction f /\ exponent e.

(** Section 7, except that any bytes not below a space may stand for themselves. *)
Definition hexdigit (h : byte) (n : N) : Prop :=
  (48 <= n_of h <= 57 /\ n = n_of h - 48) \/ (65 <= n_of h <= 70 /\ n = n_of h - 55) \/ (97 <= n_of h <= 102 /\ n = n_of h - 87).
Definition short_escapes : list (byte * byte) :=
  [("""", x22); ("\", x5c); ("/", x2f); ("b", x08); ("f", x0c); ("n", x0a); ("r", x0d); ("t", x09)]%byte.
(** [u h1 h2 h3 h4] after a backslash *)
Definition code (h : bytes) (c : N) : Prop := exists h1 h2 h3 h4 a b d e,
  h = [h1; h2; h3; h4] /\ hexdigit h1 a /\ hexdigit h2 b /\ hexdigit h3 d /\ hexdigit h4 e /\
  c = a * 4096 + b * 256 + d * 16 + e.
Inductive spelling : bytes -> Prop :=
| ch_nil : spelling []
| ch_plain b r : 32 <= n_of b -> b <> """"%byte -> b <> "\"%byte -> spelling r -> spelling (b :: r)
| ch_short e c r : In (e, c) short_escapes -> spelling r -> spelling ("\"%byte :: e :: r)
| ch_code h c r : code h c -> spelling r -> spelling ("\" :: "u" :: h ++ r)%byte.

(** Section 2 to 5 *)
Inductive spells : json -> bytes -> Prop :=
| sp_null : spells JNull ["n"; "u"; "l"; "l"]%byte
| sp_true : spells (JBool true) ["t"; "r"; "u"; "e"]%byte
| sp_false : spells (JBool false) ["f"; "a"; "l"; "s"; "e"]%byte
| sp_num t : json_number t -> spells (JNum t) t
| sp_str raw : spelling raw -> spells (JStr raw) ([""""] ++ raw ++ [""""])%byte
| sp_arr0 w : spaces w -> spells (JArr []) (["["] ++ w ++ ["]"])%byte
| sp_arr l t : elements l t -> spells (JArr l) (["["] ++ t ++ ["]"])%byte
| sp_obj0 w : spaces w -> spells (JObj []) (["{"] ++ w ++ ["}"])%byte
| sp_obj l t : members l t -> spells (JObj l) (["{"] ++ t ++ ["}"])%byte
with elements : list json -> bytes -> Prop :=
| el_one v w t w' : spaces w -> spells v t -> spaces w' -> elements [v] (w ++ t ++ w')
| el_more v l w t w' r : spaces w -> spells v t -> spaces w' -> elements l r -> elements (v :: l) (w ++ t ++ w' ++ [","%byte] ++ r)
with members : list (bytes * json) -> bytes -> Prop :=
| mb_one k v w1 w2 w t w' : spaces w1 -> spelling k -> spaces w2 -> spaces w -> spells v t -> spaces w' ->
    members [(k, v)] (w1 ++ [""""] ++ k ++ [""""] ++ w2 ++ [":"] ++ w ++ t ++ w')%byte
| mb_more k v l w1 w2 w t w' r : spaces w1 -> spelling k -> spaces w2 -> spaces w -> spells v t -> spaces w' -> members l r ->
    members ((k, v) :: l) (w1 ++ [""""] ++ k ++ [""""] ++ w2 ++ [":"] ++ w ++ t ++ w' ++ [","] ++ r)%byte.
Definition document (v : json) (s : bytes) : Prop :=
  exists w t w', s = w ++ t ++ w' /\ spaces w /\ spells v t /\ spaces w'.

(** Sections 7 and 8.2: the characters of a spelling, each as its UTF-8 bytes. *)
Inductive means : bytes -> bytes -> Prop :=
| mn_nil : means [] []
| mn_plain b r s : b <> "\"%byte -> means r s -> means (b :: r) (b :: s)
| mn_short e c r s : In (e, c) short_escapes -> means r s -> means ("\"%byte :: e :: r) (c :: s)
| mn_code h c p r s : code h c -> utf8_char c p -> means r s -> means ("\" :: "u" :: h ++ r)%byte (p ++ s)
| mn_pair h c g d p r s : code h c -> 0xD800 <= c < 0xDC00 -> code g d -> 0xDC00 <= d < 0xE000 ->
    utf8_char ((c - 0xD800) * 0x400 + (d - 0xDC00) + 0x10000) p -> means r s ->
    means ("\" :: "u" :: h ++ "\" :: "u" :: g ++ r)%byte (p ++ s).
Definition text_of (raw s : bytes) : Prop := means raw s /\ is_text s.

(** The value of a json_number that is a plain integer. *)
Fixpoint decimal (d : bytes) (acc : N) : N := match d with [] => acc | b :: r => decimal r (acc * 10 + (n_of b - 48)) end.
Definition counts (t : bytes) (n : N) : Prop := numerals t /\ n = decimal t 0.

(** Well-spelled leaves. *)
Inductive wf : json -> Prop :=
| wf_null : wf JNull
| wf_bool b : wf (JBool b)
| wf_num t : json_number t -> wf (JNum t)
| wf_str raw : spelling raw -> wf (JStr raw)
| wf_arr l : Forall wf l -> wf (JArr l)
| wf_obj l : Forall (fun m => spelling (fst m) /\ wf (snd m)) l -> wf (JObj l).
