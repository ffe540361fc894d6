(** Specification of codec names, independent of the parsers and printers. *)
From Coq Require Import NArith List.
From Coq Require Import Strings.String.
From Coq Require Import Init.Byte Strings.Byte.
From Verif.Model Require Import Codec.
From Verif.Spec Require Import CodingSpec.
Import ListNotations.
Open Scope N_scope.
Open Scope list_scope.

Definition ascii (s : string) : list byte := String.list_byte_of_string s.

(** ** Numerals *)
(** [b] is a digit of value [v]. *)
Definition digit_of (radix v : N) (b : byte) : Prop :=
  v < radix /\ ((v < 10 /\ Byte.to_N b = 48 + v) \/
                (10 <= v /\ (Byte.to_N b = 55 + v \/ Byte.to_N b = 87 + v))).
(** [ds] are digits, most significant first, of value [v]. *)
Inductive numeral (radix : N) : N -> list byte -> Prop :=
| num_nil : numeral radix 0 []
| num_snoc v ds d b : numeral radix v ds -> digit_of radix d b -> numeral radix (v * radix + d) (ds ++ [b]).
(** A number of at most [max] as Rust reads it: a plus sign is allowed. *)
Definition number (radix max v : N) (t : list byte) : Prop :=
  v <= max /\ exists ds, ds <> [] /\ numeral radix v ds /\ (t = ds \/ t = ascii "+" ++ ds).
(** A byte written in a radix. *)
Definition is_u8 (radix : N) (t : list byte) (b : byte) : Prop := number radix 255 (Byte.to_N b) t.

(** Nothing more, or a dot and anything. *)
Definition ends_part (rest : list byte) : Prop := rest = [] \/ exists r, rest = ascii "." ++ r.
(** Parts separated by dots *)
Inductive dotted : list (list byte) -> list byte -> Prop :=
| dotted_one p : dotted [p] p
| dotted_cons p ps s : dotted ps s -> dotted (p :: ps) (p ++ ascii "." ++ s).

(** ** What is accepted *)
(** [avc1.PPCCLL], then anything behind another dot. *)
Definition h264_text (s : list byte) (h : h264) : Prop :=
  exists p c l rest,
    s = ascii "avc1." ++ p ++ c ++ l ++ rest /\
    List.length p = 2%nat /\ List.length c = 2%nat /\ List.length l = 2%nat /\
    is_u8 16 p (h4_profile h) /\ is_u8 16 c (h4_constraints h) /\ is_u8 16 l (h4_level h) /\
    ends_part rest.

(** [vp09.] and three or eight decimal numbers; the last five default to 1, 1, 1, 1 and off, and the
    last one is on when it is 1. *)
Definition vp9_text (s : list byte) (v : vp9) : Prop :=
  exists r parts, s = ascii "vp09." ++ r /\ dotted parts r /\
    exists nums, Forall2 (is_u8 10) parts nums /\
      ((nums = [v9_profile v; v9_level v; v9_depth v] /\
        v9_chroma v = x01 /\ v9_primaries v = x01 /\ v9_transfer v = x01 /\ v9_matrix v = x01 /\ v9_full v = false) \/
       (exists full, nums = [v9_profile v; v9_level v; v9_depth v; v9_chroma v; v9_primaries v; v9_transfer v; v9_matrix v; full] /\
          (v9_full v = true <-> full = x01))).

(** [mp4a.40.N] *)
Definition aac_text (s : list byte) (p : byte) : Prop :=
  exists t, s = ascii "mp4a.40." ++ t /\ is_u8 10 t p.

(** ** What prints to something that parses back *)
(** The [i]th byte of an array *)
Definition at_ (l : list byte) (i : nat) : N := Byte.to_N (nth i l x00).

(** Arrays of the right size *)
Definition h265_value (h : h265) : Prop :=
  List.length (h5_compat h) = 4%nat /\ List.length (h5_constraints h) = 6%nat.

Definition h265_good (h : h265) : Prop :=
  Byte.to_N (h5_space h) <= 26 /\
  (exists i, at_ (h5_compat h) i <> 0) /\
  (forall i j, (i < j)%nat -> at_ (h5_compat h) j <> 0 -> 16 <= at_ (h5_compat h) i) /\
  (exists i, at_ (h5_constraints h) i <> 0).

(** A word character; [w] is the Unicode table beyond ASCII. *)
Definition word (w : N -> bool) (c : N) : Prop :=
  (c < 128 /\ ((48 <= c <= 57) \/ (65 <= c <= 90) \/ (97 <= c <= 122) \/ c = 95)) \/
  (128 <= c /\ w c = true).

(** [char] values *)
Definition av1_value (a : av1) : Prop := scalar (a1_tier a).

(** The fields left out of the short form *)
Definition av1_plain (a : av1) : Prop :=
  a1_mono a = false /\ a1_x a = true /\ a1_y a = true /\ a1_pos a = x00 /\
  a1_color a = x01 /\ a1_transfer a = x01 /\ a1_matrix a = x01 /\ a1_full a = false.

Definition av1_good (w : N -> bool) (a : av1) : Prop :=
  Byte.to_N (a1_profile a) <= 1 /\ Byte.to_N (a1_level a) <= 99 /\ Byte.to_N (a1_depth a) <= 99 /\
  word w (a1_tier a) /\
  (av1_plain a \/
   (Byte.to_N (a1_pos a) <= 3 /\ Byte.to_N (a1_color a) <= 99 /\ Byte.to_N (a1_transfer a) <= 99 /\
    Byte.to_N (a1_matrix a) <= 99)).

(** Names of the known families *)
Definition begins (p : string) (s : list byte) : Prop := exists r, s = ascii p ++ r.
Definition known_video (s : list byte) : Prop :=
  begins "avc1." s \/ begins "hvc1." s \/ begins "hev1." s \/ s = ascii "vp8" \/ begins "vp09." s \/ begins "av01." s.
Definition known_audio (s : list byte) : Prop := begins "mp4a.40." s \/ s = ascii "opus".

Definition video_value (v : video) : Prop :=
  match v with H265 h => h265_value h | AV1 a => av1_value a | _ => True end.
Definition video_good (w : N -> bool) (v : video) : Prop :=
  match v with
  | H265 h => h265_good h
  | AV1 a => av1_good w a
  | VUnknown s => ~ known_video s
  | _ => True
  end.
Definition audio_good (a : audio) : Prop :=
  match a with AUnknown s => ~ known_audio s | _ => True end.

(** ** What panics *)
(** Position [i] of [p] is inside a character. *)
Definition inside (p : list byte) (i : nat) : Prop :=
  exists b, nth_error p i = Some b /\ 128 <= Byte.to_N b /\ Byte.to_N b < 192.
(** The second part of an [avc1] name has six bytes, but its characters do not come in pairs of bytes. *)
Definition h264_cut (s : list byte) : Prop :=
  exists p rest, s = ascii "avc1." ++ p ++ rest /\ List.length p = 6%nat /\
    ~ In x2e p /\ ends_part rest /\
    (inside p 2 \/ ((exists v, number 16 255 v (firstn 2 p)) /\ inside p 4)).
