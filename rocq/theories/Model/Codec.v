(** Codec names in the hang catalog: rs/hang/src/catalog/video/{h264,h265,vp9,av1,codec}.rs and
    rs/hang/src/catalog/audio/{aac,codec}.rs.

    A [&str] is its UTF-8 bytes.  Errors keep only whether they are [Error::InvalidCodec] or a
    [ParseIntError]; its kind is dropped. *)
From Coq Require Import NArith List Bool.
From Coq Require Import Strings.String.

From Coq Require Import Init.Byte Strings.Byte.
From Verif.Model Require Import Base Map Text.
Import ListNotations.
Open Scope nat_scope.
Open Scope list_scope.

(** Outcome of [from_str]. *)
Inductive parsed (A : Type) := Parsed (a : A) | InvalidCodec | BadNumber | Panics.
Arguments Parsed {A} a.
Arguments InvalidCodec {A}.
Arguments BadNumber {A}.
Arguments Panics {A}.

(** The [?] operator. *)
Definition pbind {A B} (x : parsed A) (f : A -> parsed B) : parsed B :=
  match x with Parsed a => f a | InvalidCodec => InvalidCodec | BadNumber => BadNumber | Panics => Panics end.

(** [Result::map] *)
Definition pmap {A B} (f : A -> B) (x : parsed A) : parsed B := pbind x (fun a => Parsed (f a)).

(** ASCII literals. *)
Definition text (s : String.string) : bytes := String.list_byte_of_string s.

(** [u8::from_str_radix(s, radix)?] *)
Definition parse_u8 (radix : N) (s : bytes) : parsed byte :=
  match parse_uint radix 255 s with Some v => Parsed (u8 v) | None => BadNumber end.

(** [str::is_char_boundary] *)
Definition boundary (s : bytes) (i : nat) : bool :=
  Nat.eqb i 0 || Nat.eqb i (List.length s) ||
  match nth_error s i with Some b => negb (cont b) | None => false end.

(** [&s[a..b]]: panics when the range is out of bounds or cuts a character. *)
Definition slice (s : bytes) (a b : nat) : parsed bytes :=
  if Nat.leb a b && boundary s a && boundary s b then Parsed (firstn (b - a) (skipn a s)) else Panics.

(** [str::starts_with], [str::strip_prefix] *)
Definition starts_with (p s : bytes) : bool := str_eqb (firstn (List.length p) s) p.
Definition strip_prefix (p s : bytes) : option bytes :=
  if starts_with p s then Some (skipn (List.length p) s) else None.

Definition dot : byte := x2e.

(** [{:02x}] *)
Definition lower (b : byte) : byte := if ((65 <=? n_of b) && (n_of b <=? 90))%N then u8 (n_of b + 32) else b.
Definition show2x (b : byte) : bytes := map lower (show2 16 (n_of b)).
(** [{:X}], [{}], [{:02}] *)
Definition showX (b : byte) : bytes := show 16 (n_of b).
Definition show10 (b : byte) : bytes := show 10 (n_of b).
Definition show02 (b : byte) : bytes := show2 10 (n_of b).
(** [flag as u8], printed with [{}] *)
Definition flag (f : bool) : byte := if f then x01 else x00.

(** ** video/h264.rs *)

(** h264.rs:7-13 *)
Record h264 := { h4_profile : byte; h4_constraints : byte; h4_level : byte }.

(** h264.rs:15-19 [Display] *)
Definition show_h264 (h : h264) : bytes :=
  text "avc1." ++ show2x (h4_profile h) ++ show2x (h4_constraints h) ++ show2x (h4_level h).

(** h264.rs:21-41 [FromStr]; parts after the second are not looked at. *)
Definition parse_h264 (s : bytes) : parsed h264 :=
  match split dot s with
  | p0 :: ps =>
    if str_eqb p0 (text "avc1") then
      match ps with
      | [] => InvalidCodec
      | part :: _ =>
        if negb (Nat.eqb (List.length part) 6) then InvalidCodec else
        pbind (slice part 0 2) (fun a => pbind (parse_u8 16 a) (fun profile =>
        pbind (slice part 2 4) (fun b => pbind (parse_u8 16 b) (fun constraints =>
        pbind (slice part 4 6) (fun c => pbind (parse_u8 16 c) (fun level =>
        Parsed {| h4_profile := profile; h4_constraints := constraints; h4_level := level |}))))))
      end
    else InvalidCodec
  | [] => InvalidCodec
  end.

(** ** video/h265.rs *)

(** h265.rs:7-26.  The arrays are lists of 4 and 6 bytes. *)
Record h265 := {
  h5_in_band : bool;
  h5_space : byte;
  h5_idc : byte;
  h5_compat : list byte;
  h5_tier : bool;
  h5_level : byte;
  h5_constraints : list byte }.

(** [skip_while(|b| **b == 0)] *)
Fixpoint drop_zeros (l : list byte) : list byte :=
  match l with b :: r => if Byte.eqb b x00 then drop_zeros r else l | [] => [] end.

(** [char] printed: its UTF-8 encoding. *)
Definition utf8 (c : N) : bytes :=
  (if c <? 128 then [u8 c]
   else if c <? 2048 then [u8 (192 + c / 64); u8 (128 + c mod 64)]
   else if c <? 65536 then [u8 (224 + c / 4096); u8 (128 + (c / 64) mod 64); u8 (128 + c mod 64)]
   else [u8 (240 + c / 262144); u8 (128 + (c / 4096) mod 64); u8 (128 + (c / 64) mod 64); u8 (128 + c mod 64)])%N.

(** h265.rs:56-59: [(b'A'.saturating_add(n).saturating_sub(1) as char).to_string()] *)
Definition show_space (b : byte) : bytes :=
  if Byte.eqb b x00 then [] else utf8 (N.min (65 + n_of b) 255 - 1)%N.

(** h265.rs:28-70 [Display] *)
Definition show_h265 (h : h265) : bytes :=
  let compatibility := List.concat (map showX (drop_zeros (rev (h5_compat h)))) in
  let skip := List.length (drop_zeros (rev (h5_constraints h))) in
  let constraints := join dot (map showX (firstn skip (h5_constraints h))) in
  (if h5_in_band h then text "hev1" else text "hvc1") ++ [dot] ++
  show_space (h5_space h) ++ show10 (h5_idc h) ++ [dot] ++
  compatibility ++ [dot] ++
  (if h5_tier h then text "H" else text "L") ++ show10 (h5_level h) ++ [dot] ++
  constraints.

(** [u32::to_le_bytes] *)
Fixpoint le_bytes (w : nat) (n : N) : bytes :=
  match w with O => [] | S w => u8 n :: le_bytes w (n / 256) end.

(** [flags[i] = b] *)
Fixpoint update (i : nat) (b : byte) (l : list byte) : list byte :=
  match l, i with
  | [], _ => []
  | _ :: r, O => b :: r
  | x :: r, S i => x :: update i b r
  end.

(** h265.rs:104-113 the loop over the remaining parts. *)
Fixpoint constraints_loop (i : nat) (parts : list bytes) (flags : list byte) : parsed (list byte) :=
  match parts with
  | [] => Parsed flags
  | p :: ps =>
    if Nat.leb 6 i then InvalidCodec
    else pbind (parse_u8 16 p) (fun b => constraints_loop (S i) ps (update i b flags))
  end.

(** [match as_bytes().first() { Some(b'A'..=b'Z') => .. }] *)
Definition upper (b : byte) : bool := ((65 <=? n_of b) && (n_of b <=? 90))%N.

(** h265.rs:72-125 [FromStr].  The slices [profile[1..]] and [level[1..]] follow an ASCII character. *)
Definition parse_h265 (s : bytes) : parsed h265 :=
  match split dot s with
  | [] => InvalidCodec
  | p0 :: ps =>
    let in_band := str_eqb p0 (text "hev1") in
    if negb (in_band || str_eqb p0 (text "hvc1")) then InvalidCodec else
    match ps with
    | [] => InvalidCodec
    | profile :: ps =>
      match profile with
      | [] => InvalidCodec
      | b :: _ =>
        let space := if upper b then (1 + n_of b - 65)%N else 0%N in
        pbind (if (0 <? space)%N then slice profile 1 (List.length profile) else Parsed profile) (fun digits =>
        pbind (parse_u8 10 digits) (fun idc =>
        match ps with
        | [] => InvalidCodec
        | compat :: ps =>
          match parse_uint 16 (2 ^ 32 - 1) compat with
          | None => BadNumber
          | Some v =>
            match ps with
            | [] => InvalidCodec
            | level :: ps =>
              match level with
              | [] => InvalidCodec
              | t :: _ =>
                if Byte.eqb t x48 || Byte.eqb t x4c then
                  pbind (slice level 1 (List.length level)) (fun digits =>
                  pbind (parse_u8 10 digits) (fun lvl =>
                  pbind (constraints_loop 0 ps (repeat x00 6)) (fun flags =>
                  Parsed {| h5_in_band := in_band; h5_space := u8 space; h5_idc := idc;
                            h5_compat := le_bytes 4 v; h5_tier := Byte.eqb t x48; h5_level := lvl;
                            h5_constraints := flags |})))
                else InvalidCodec
              end
            end
          end
        end))
      end
    end
  end.

(** ** video/vp9.rs *)

(** vp9.rs:5-15 *)
Record vp9 := {
  v9_profile : byte; v9_level : byte; v9_depth : byte;
  v9_chroma : byte; v9_primaries : byte; v9_transfer : byte; v9_matrix : byte; v9_full : bool }.

(** [==] of a byte, of a [bool]. *)
Local Notation beq := Byte.eqb.

(** vp9.rs:19-44 [Display]; [self == &short] compares the remaining fields with those of
    [Default] (vp9.rs:84-97). *)
Definition show_vp9 (v : vp9) : bytes :=
  text "vp09." ++ show02 (v9_profile v) ++ [dot] ++ show02 (v9_level v) ++ [dot] ++ show02 (v9_depth v) ++
  (if beq (v9_chroma v) x01 && beq (v9_primaries v) x01 && beq (v9_transfer v) x01 && beq (v9_matrix v) x01 &&
      negb (v9_full v)
   then []
   else [dot] ++ show02 (v9_chroma v) ++ [dot] ++ show02 (v9_primaries v) ++ [dot] ++ show02 (v9_transfer v) ++
        [dot] ++ show02 (v9_matrix v) ++ [dot] ++ show02 (flag (v9_full v))).

(** [map(u8::from_str).collect::<Result<Vec<_>, _>>()] *)
Fixpoint parse_all (l : list bytes) : parsed (list byte) :=
  match l with
  | [] => Parsed []
  | p :: l => pbind (parse_u8 10 p) (fun b => pbind (parse_all l) (fun r => Parsed (b :: r)))
  end.

(** vp9.rs:46-82 [FromStr] *)
Definition parse_vp9 (s : bytes) : parsed vp9 :=
  match strip_prefix (text "vp09.") s with
  | None => InvalidCodec
  | Some r =>
    pbind (parse_all (split dot r)) (fun parts =>
    match parts with
    | [p; l; d] => Parsed (Build_vp9 p l d x01 x01 x01 x01 false)
    | [p; l; d; c; pr; t; m; f] => Parsed (Build_vp9 p l d c pr t m (beq f x01))
    | _ => InvalidCodec
    end)
  end.

(** ** video/av1.rs *)

(** av1.rs:6-20.  [tier] is a [char]: a Unicode scalar value. *)
Record av1 := {
  a1_profile : byte; a1_level : byte; a1_tier : N; a1_depth : byte;
  a1_mono : bool; a1_x : bool; a1_y : bool; a1_pos : byte;
  a1_color : byte; a1_transfer : byte; a1_matrix : byte; a1_full : bool }.

(** av1.rs:28-61 [Display]; [self == &short] compares with [Default] (av1.rs:112-130). *)
Definition show_av1 (a : av1) : bytes :=
  text "av01." ++ show10 (a1_profile a) ++ [dot] ++ show02 (a1_level a) ++ utf8 (a1_tier a) ++ [dot] ++
  show02 (a1_depth a) ++
  (if negb (a1_mono a) && a1_x a && a1_y a && beq (a1_pos a) x00 && beq (a1_color a) x01 &&
      beq (a1_transfer a) x01 && beq (a1_matrix a) x01 && negb (a1_full a)
   then []
   else [dot] ++ show10 (flag (a1_mono a)) ++
        [dot] ++ show10 (flag (a1_x a)) ++ show10 (flag (a1_y a)) ++ show10 (a1_pos a) ++
        [dot] ++ show02 (a1_color a) ++ [dot] ++ show02 (a1_transfer a) ++ [dot] ++ show02 (a1_matrix a) ++
        [dot] ++ show10 (flag (a1_full a))).

(** [str::chars] of well-formed text. *)
Fixpoint chars (s : bytes) : list N :=
  match s with
  | [] => []
  | b0 :: r0 =>
    (if n_of b0 <? 128 then n_of b0 :: chars r0
     else if n_of b0 <? 224 then
       match r0 with b1 :: r1 => (n_of b0 - 192) * 64 + (n_of b1 - 128) :: chars r1 | _ => [] end
     else if n_of b0 <? 240 then
       match r0 with
       | b1 :: b2 :: r2 => (n_of b0 - 224) * 4096 + (n_of b1 - 128) * 64 + (n_of b2 - 128) :: chars r2
       | _ => []
       end
     else
       match r0 with
       | b1 :: b2 :: b3 :: r3 =>
         (n_of b0 - 240) * 262144 + (n_of b1 - 128) * 4096 + (n_of b2 - 128) * 64 + (n_of b3 - 128) :: chars r3
       | _ => []
       end)%N
  end.

(** The regex crate's [\d] and [\w] are Unicode-aware.  The tables beyond ASCII are a parameter: nothing
    below depends on what they contain. *)
Record unicode := { uni_digit : N -> bool; uni_word : N -> bool }.

(** Character classes *)
Definition between (lo hi c : N) : bool := ((lo <=? c) && (c <=? hi))%N.
Definition cls_lit (b : byte) (c : N) : bool := (c =? n_of b)%N.
Definition cls_d (u : unicode) (c : N) : bool := if (c <? 128)%N then between 48 57 c else uni_digit u c.
Definition cls_w (u : unicode) (c : N) : bool :=
  if (c <? 128)%N then between 48 57 c || between 65 90 c || between 97 122 c || (c =? 95)%N else uni_word u c.

(** av1.rs:63-79 [AV1_REGEX]: every element of the pattern is one character wide, so a match is a
    character by character comparison with the pattern, without or with the optional group. *)
Definition rx_base (u : unicode) : list (N -> bool) :=
  map cls_lit (text "av01.") ++ [between 48 49] ++ [cls_lit dot; cls_d u; cls_d u; cls_w u] ++
  [cls_lit dot; cls_d u; cls_d u].
Definition rx_extra (u : unicode) : list (N -> bool) :=
  [cls_lit dot; cls_d u] ++ [cls_lit dot; between 48 49; between 48 49; between 48 51] ++
  [cls_lit dot; cls_d u; cls_d u] ++ [cls_lit dot; cls_d u; cls_d u] ++ [cls_lit dot; cls_d u; cls_d u] ++
  [cls_lit dot; between 48 49].
Fixpoint matches (p : list (N -> bool)) (s : list N) : bool :=
  match p, s with
  | [], [] => true
  | f :: p, c :: s => f c && matches p s
  | _, _ => false
  end.

(** [&captures["name"]]: the text of a group, given by its position in the pattern. *)
Definition group (cs : list N) (i n : nat) : bytes := flat_map utf8 (firstn n (skipn i cs)).

(** av1.rs:81-110 [FromStr] *)
Definition parse_av1 (u : unicode) (s : bytes) : parsed av1 :=
  let cs := chars s in
  let short := matches (rx_base u) cs in
  let long := matches (rx_base u ++ rx_extra u) cs in
  if negb (short || long) then InvalidCodec else
  pbind (parse_u8 10 (group cs 5 1)) (fun profile =>
  pbind (parse_u8 10 (group cs 7 2)) (fun level =>
  let tier := nth 9 cs 0%N in
  pbind (parse_u8 10 (group cs 11 2)) (fun depth =>
  if negb long then Parsed (Build_av1 profile level tier depth false true true x00 x01 x01 x01 false) else
  let mono := str_eqb (group cs 14 1) (text "1") in
  let x := str_eqb (group cs 16 1) (text "1") in
  let y := str_eqb (group cs 17 1) (text "1") in
  pbind (parse_u8 10 (group cs 18 1)) (fun pos =>
  pbind (parse_u8 10 (group cs 20 2)) (fun color =>
  pbind (parse_u8 10 (group cs 23 2)) (fun transfer =>
  pbind (parse_u8 10 (group cs 26 2)) (fun matrix =>
  let full := str_eqb (group cs 29 1) (text "1") in
  Parsed (Build_av1 profile level tier depth mono x y pos color transfer matrix full)))))))).

(** ** video/codec.rs *)

(** codec.rs:9-22 *)
Inductive video :=
| H264 (h : h264) | H265 (h : h265) | VP9 (v : vp9) | AV1 (a : av1) | VP8 | VUnknown (s : bytes).

(** codec.rs:10 derived [Display] *)
Definition show_video (v : video) : bytes :=
  match v with
  | H264 h => show_h264 h
  | H265 h => show_h265 h
  | VP9 v => show_vp9 v
  | AV1 a => show_av1 a
  | VP8 => text "vp8"
  | VUnknown s => s
  end.

(** codec.rs:24-42 [FromStr] *)
Definition parse_video (u : unicode) (s : bytes) : parsed video :=
  if starts_with (text "avc1.") s then pmap H264 (parse_h264 s)
  else if starts_with (text "hvc1.") s || starts_with (text "hev1.") s then pmap H265 (parse_h265 s)
  else if str_eqb s (text "vp8") then Parsed VP8
  else if starts_with (text "vp09.") s then pmap VP9 (parse_vp9 s)
  else if starts_with (text "av01.") s then pmap AV1 (parse_av1 u s)
  else Parsed (VUnknown s).

(** ** audio/aac.rs, audio/codec.rs *)

(** aac.rs:5-10, codec.rs:7-16 *)
Inductive audio := AAC (profile : byte) | Opus | AUnknown (s : bytes).

(** aac.rs:12-16, codec.rs:7 [Display] *)
Definition show_audio (a : audio) : bytes :=
  match a with
  | AAC p => text "mp4a.40." ++ show10 p
  | Opus => text "opus"
  | AUnknown s => s
  end.

(** aac.rs:18-27 [AAC::from_str] *)
Definition parse_aac (s : bytes) : parsed byte :=
  match strip_prefix (text "mp4a.40.") s with None => InvalidCodec | Some r => parse_u8 10 r end.

(** codec.rs:18-30 [FromStr] *)
Definition parse_audio (s : bytes) : parsed audio :=
  if starts_with (text "mp4a.40.") s then pmap AAC (parse_aac s)
  else if str_eqb s (text "opus") then Parsed Opus
  else Parsed (AUnknown s).
