(** rs/moq/src/coding: variable-length integers and primitive codecs. *)
From Coq Require Import NArith ZArith List.
From Coq Require Import Init.Byte Strings.Byte.
From Verif.Model Require Import Base.
Import ListNotations.
Open Scope N_scope.

(** coding/decode.rs:10-47 [DecodeError].  The [FromUtf8Error] payload of [InvalidString] is dropped. *)
Inductive decode_error :=
| Short | InvalidString | InvalidMessage (n : N) | InvalidRole (n : N) | InvalidSubscribeLocation
| InvalidValue | BoundsExceeded | ExpectedEnd | ExpectedData
| DupliateParameter | MissingParameter | InvalidParameter.

(** Result of [Decode::decode]: the value and the bytes left in the buffer, or an error.  (On an
    error every caller discards its cursor, so the position is not kept.)  [DFuel] marks exhausted
    loop fuel; it is proved unreachable. *)
Inductive dres (A : Type) :=
| DOk (a : A) (rest : bytes)
| DErr (e : decode_error)
| DFuel.
Arguments DOk {A} a rest.
Arguments DErr {A} e.
Arguments DFuel {A}.

Definition decoder (A : Type) := bytes -> dres A.

(** The [?] operator. *)
Definition dbind {A B} (x : dres A) (f : A -> bytes -> dres B) : dres B :=
  match x with
  | DOk a r => f a r
  | DErr e => DErr e
  | DFuel => DFuel
  end.
Definition dmap {A B} (f : A -> B) (x : dres A) : dres B := dbind x (fun a r => DOk (f a) r).

(** * Writing: [bytes::BufMut] *)

Inductive endian := BE | LE.

(** One call of a [BufMut] method.
    [PInt w e v]: [put_u8/u16/u32/u64/u128] and the [i*]/[f*] variants, [w] bytes of the integer (or
    bit pattern) [v]; [PUint n e v]: [put_uint]/[put_int] with [nbytes = n]; [PBuf chunks]: [put] of a
    source [Buf] made of these chunks; [PSlice]: [put_slice]; [PBytes v c]: [put_bytes]. *)
Inductive put :=
| PInt (w : nat) (e : endian) (v : N)
| PUint (nbytes : nat) (e : endian) (v : N)
| PBuf (chunks : list bytes)
| PSlice (bs : bytes)
| PBytes (v : N) (cnt : nat).

Definition int_bytes (w : nat) (e : endian) (v : N) : bytes :=
  match e with BE => be_bytes w v | LE => rev (be_bytes w v) end.

(** The [Vec<u8>] implementation of the call (bytes crate). *)
Definition put_bytes_of (p : put) : bytes :=
  match p with
  | PInt w e v => int_bytes w e v
  | PUint w e v => int_bytes w e v
  | PBuf cs => concat cs
  | PSlice bs => bs
  | PBytes v c => repeat (u8 v) c
  end.

(** coding/size.rs:10-191 [Sizer]: the same call only adds to a counter.  (The counter is a [usize];
    overflow past 2^64 bytes is not modelled.) *)
Definition sizer_put (size : N) (p : put) : N :=
  match p with
  | PInt w _ _ => size + N.of_nat w
  | PUint w _ _ => size + N.of_nat w
  | PBuf cs => size + fold_right (fun c n => len c + n) 0 cs
  | PSlice bs => size + len bs
  | PBytes _ c => size + N.of_nat c
  end.

Definition wire (ps : list put) : bytes := concat (map put_bytes_of ps).
Definition sizer (ps : list put) : N := fold_left sizer_put ps 0.

(** [Encode::encode]: the sequence of buffer calls, or [Panic]. *)
Definition encoder (A : Type) := A -> res (list put).

(** Sequencing of two encode calls on the same buffer. *)
Definition eseq (a b : res (list put)) : res (list put) :=
  match a with
  | Panic => Panic
  | Val x => match b with Panic => Panic | Val y => Val (x ++ y) end
  end.

(** * VarInt *)

(** varint.rs:26 [VarInt::MAX = (1 << 62) - 1] *)
Definition varint_max : N := N.shiftl 1 62 - 1.

(** varint.rs:79-91 [TryFrom<u64> for VarInt]; also u128 (93-104) and usize (106-113). *)
Definition varint_try_from (x : N) : option N :=
  if x <=? varint_max then Some x else None.

(** varint.rs:115-126, 128-139, 141-152: [TryFrom<VarInt>] for u32, u16, u8 (bits = 32, 16, 8). *)
Definition varint_narrow (bits : N) (v : N) : option N :=
  if v <=? 2 ^ bits - 1 then Some (v mod 2 ^ bits) else None.

(** varint.rs:215-225 [encode_size] *)
Definition varint_size (v : N) : N :=
  if v <? 2 ^ 6 then 1
  else if v <? 2 ^ 14 then 2
  else if v <? 2 ^ 30 then 4
  else 8.

(** varint.rs:205-213 [Encode for VarInt]; the [unreachable!] arm is [Panic]. *)
Definition varint_encode (v : N) : res (list put) :=
  match varint_size v with
  | 1 => Val [PInt 1 BE (v mod 2 ^ 8)]
  | 2 => Val [PInt 2 BE (N.lor (N.shiftl 1 14) (v mod 2 ^ 16))]
  | 4 => Val [PInt 4 BE (N.lor (N.shiftl 2 30) (v mod 2 ^ 32))]
  | 8 => Val [PInt 8 BE (N.lor (N.shiftl 3 62) v)]
  | _ => Panic
  end.

(** varint.rs:160-201 [Decode for VarInt] *)
Definition varint_decode (r : bytes) : dres N :=
  match r with
  | [] => DErr Short                                           (* 163 *)
  | b :: r =>
    let tag := N.shiftr (n_of b) 6 in                          (* 168 *)
    let b0 := u8 (N.land (n_of b) 63) in                       (* 171 *)
    match tag with
    | 0 => DOk (n_of b0) r
    | 1 => match r with
           | [] => DErr Short
           | _ => DOk (be_value (b0 :: firstn 1 r)) (skipn 1 r)
           end
    | 2 => if len r <? 3 then DErr Short
           else DOk (be_value (b0 :: firstn 3 r)) (skipn 3 r)
    | _ => if len r <? 7 then DErr Short
           else DOk (be_value (b0 :: firstn 7 r)) (skipn 7 r)
    end
  end.

(** varint.rs:228-235 [Encode for u64], 243-250 [Encode for usize]. *)
Definition u64_encode (v : N) : res (list put) :=
  match varint_try_from v with
  | Some v => varint_encode v
  | None => Panic                                              (* expect("u64 too large") *)
  end.

(** varint.rs:237-241 *)
Definition u64_decode : decoder N := varint_decode.

(** varint.rs:252-256: [as usize] keeps the low [word] bits (word = 64 native, 32 on wasm32). *)
Definition usize_decode (word : N) : decoder N :=
  fun r => dmap (fun v => v mod 2 ^ word) (varint_decode r).

(** varint.rs:258-270 [u32] *)
Definition u32_encode (v : N) : res (list put) := varint_encode v.
Definition u32_decode : decoder N :=
  fun r => dbind (varint_decode r) (fun v r =>
    match varint_narrow 32 v with
    | Some v => DOk v r
    | None => DErr BoundsExceeded
    end).

(** * Primitives *)

(** decode.rs:49-56, encode.rs:19-27 [u8] *)
Definition u8_decode : decoder byte :=
  fun r => match r with b :: r => DOk b r | [] => DErr Short end.
Definition u8_encode (b : byte) : res (list put) := Val [PInt 1 BE (n_of b)].

(** decode.rs:90-101, encode.rs:49-60 [i8] (offset by 128). *)
Definition i8_decode : decoder Z :=
  fun r => match r with b :: r => DOk (Z.of_N (n_of b) - 128)%Z r | [] => DErr Short end.
Definition i8_encode (v : Z) : res (list put) := Val [PInt 1 BE (Z.to_N ((v + 128) mod 256))].

(** The loop [for _ in 0..n { v.push(T::decode(buf)?) }] of decode.rs:75-77 (also versions.rs:96-99).
    Fuel only bounds the recursion. *)
Fixpoint decode_loop {A} (dec : decoder A) (fuel : nat) (n : N) (r : bytes) : dres (list A) :=
  match n with
  | 0 => DOk [] r
  | _ =>
    match fuel with
    | O => DFuel
    | S fuel =>
      dbind (dec r) (fun a r =>
      dbind (decode_loop dec fuel (N.pred n) r) (fun l r => DOk (a :: l) r))
    end
  end.

Definition decode_times {A} (dec : decoder A) (n : N) (r : bytes) : dres (list A) :=
  decode_loop dec (S (length r)) n r.

(** decode.rs:68-81 [Vec<T>] *)
Definition vec_decode {A} (word : N) (dec : decoder A) : decoder (list A) :=
  fun r => dbind (usize_decode word r) (fun n r => decode_times dec n r).

(** encode.rs:71-78 [Vec<T>]/[&[T]] *)
Definition seq_encode {A} (enc : encoder A) (l : list A) : res (list put) :=
  fold_right (fun a acc => eseq (enc a) acc) (Val []) l.
Definition vec_encode {A} (enc : encoder A) (l : list A) : res (list put) :=
  eseq (u64_encode (len l)) (seq_encode enc l).

(** decode.rs:58-66 [String]: a byte vector checked for UTF-8. *)
Definition string_decode (word : N) : decoder bytes :=
  fun r => dbind (vec_decode word u8_decode r) (fun v r =>
    if utf8_valid v then DOk v r else DErr InvalidString).

(** encode.rs:29-40 [String]/[&str] *)
Definition string_encode (s : bytes) : res (list put) :=
  eseq (u64_encode (len s)) (Val [PBuf [s]]).

(** decode.rs:83-88, encode.rs:42-47 [Duration], in nanoseconds. *)
Definition duration_decode : decoder N :=
  fun r => dmap (fun us => us * 1000) (u64_decode r).
Definition duration_encode (ns : N) : res (list put) :=
  let us := ns / 1000 in                                       (* as_micros *)
  if us <? 2 ^ 64 then u64_encode us else Panic.               (* expect("duration too large") *)

(** decode.rs:103-112, encode.rs:80-89 [Bytes] *)
Definition blob_decode (word : N) : decoder bytes :=
  fun r => dbind (usize_decode word r) (fun n r =>
    if len r <? n then DErr Short
    else DOk (firstn (N.to_nat n) r) (skipn (N.to_nat n) r)).
Definition blob_encode (b : bytes) : res (list put) :=
  eseq (u64_encode (len b)) (Val [PSlice b]).

(** The two overridden [encode_size]s that do not go through the default (encode.rs:24, 57: constant 1;
    encode.rs:86-88 [Bytes]: [self.len().encode_size() + self.len()], where [usize::encode_size] is the
    default one). *)
Definition default_encode_size (e : res (list put)) : res N :=
  match e with Val ps => Val (sizer ps) | Panic => Panic end.
Definition blob_encode_size (b : bytes) : res N :=
  match default_encode_size (u64_encode (len b)) with
  | Val n => Val (n + len b)
  | Panic => Panic
  end.
