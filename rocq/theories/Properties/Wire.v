(** Properties C01-C11: wire coding. *)
From Coq Require Import NArith ZArith List Permutation.
From Coq Require Import Init.Byte Strings.Byte.
From Verif.Model Require Import Base Coding Message ErrorCode.
From Verif.Spec Require Import CodingSpec MessageSpec ErrorSpec.
From Verif.Proofs Require Import CodingP MessageP CodingTop.
Import ListNotations.
Open Scope N_scope.

(** * C01 *)
Theorem C01_varint_roundtrip : forall v rest, v < 2 ^ 62 ->
  exists ps, u64_encode v = Val ps /\ u64_decode (wire ps ++ rest) = DOk v rest.
Proof. exact varint_roundtrip. Qed.
Print Assumptions C01_varint_roundtrip.

Example C01_example : 16384 < 2 ^ 62 /\
  u64_encode 16384 = Val [PInt 4 BE 2147500032] /\
  u64_decode [x80; x00; x40; x00; xff] = DOk 16384 [xff].
Proof. vm_compute. auto. Qed.

(** * C02 *)
Theorem C02_varint_shortest : forall v, v < 2 ^ 62 ->
  exists ps, u64_encode v = Val ps /\ is_shortest_varint v (wire ps).
Proof. exact varint_shortest. Qed.
Print Assumptions C02_varint_shortest.

Theorem C02_varint_panics_exactly : forall v, u64_encode v = Panic <-> 2 ^ 62 <= v.
Proof. exact u64_encode_panic. Qed.
Print Assumptions C02_varint_panics_exactly.

Theorem C02_varint_conversions : forall v,
  (varint_try_from v = if v <? 2 ^ 62 then Some v else None) /\
  (forall bits, varint_narrow bits v = if v <? 2 ^ bits then Some v else None).
Proof. exact varint_conversions. Qed.
Print Assumptions C02_varint_conversions.

Example C02_example : 63 < 2 ^ 62 /\ u64_encode 63 = Val [PInt 1 BE 63] /\ u64_encode 64 = Val [PInt 2 BE 16448]
  /\ u64_encode (2 ^ 62) = Panic /\ varint_narrow 8 256 = None.
Proof. vm_compute. auto. Qed.

(** * C03 *)
Theorem C03_varint_decode_exact : forall bs,
  (forall v rest, u64_decode bs = DOk v rest <-> exists p, bs = p ++ rest /\ is_varint v p) /\
  (u64_decode bs = DErr Short <->
     match bs with [] => True | b :: _ => N.of_nat (length bs) < varint_len_of_first b end) /\
  (forall e, u64_decode bs = DErr e -> e = Short) /\ u64_decode bs <> DFuel.
Proof. exact varint_decode_exact. Qed.
Print Assumptions C03_varint_decode_exact.

Theorem C03_varint_value_bound : forall bs v rest, u64_decode bs = DOk v rest -> v < 2 ^ 62.
Proof. exact varint_value_bound. Qed.
Print Assumptions C03_varint_value_bound.

Example C03_example :
  u64_decode [xff; xff; xff; xff; xff; xff; xff; xff; x01] = DOk (2 ^ 62 - 1) [x01] /\
  u64_decode [xc0; x00; x00; x00] = DErr Short.
Proof. vm_compute. auto. Qed.

(** * C04 *)
Theorem C04_message_roundtrip : forall w k (m : payload k) rest, wf w k m ->
  exists ps, encode_kind k m = Val ps /\ decode_kind w k (wire ps ++ rest) = DOk m rest.
Proof. exact message_roundtrip. Qed.
Print Assumptions C04_message_roundtrip.

(** Durations finer than a microsecond lose exactly the sub-microsecond part. *)
Theorem C04_duration_truncates : forall d, d / 1000 < 2 ^ 62 ->
  exists ps, duration_encode d = Val ps /\
    forall rest, duration_decode (wire ps ++ rest) = DOk (d - d mod 1000) rest.
Proof. exact rt_duration_trunc. Qed.
Print Assumptions C04_duration_truncates.

Example C04_example :
  let m := Subscribe 7 [x61; x2f; xc3; xa9] [] xff in
  wf 64 KSubscribe m /\
  match encode_kind KSubscribe m with
  | Val ps => decode_kind 64 KSubscribe (wire ps ++ [x2a]) = DOk m [x2a]
  | Panic => False
  end.
Proof.
  split; [|vm_compute; reflexivity].
  cbv [wf ok_int ok_text ok_bytes sub_id sub_broadcast sub_track].
  repeat split; try (apply BaseP.utf8_valid_iff; vm_compute; reflexivity).
Qed.

(** * C05 *)
Theorem C05_streaming_decode : forall w k,
  (forall (m : payload k) ps p, wf w k m -> encode_kind k m = Val ps -> strict_prefix p (wire ps) ->
     decode_kind w k p = DErr Short) /\
  (forall bs m rest more, decode_kind w k bs = DOk m rest -> decode_kind w k (bs ++ more) = DOk m (rest ++ more)) /\
  (forall bs e more, decode_kind w k bs = DErr e -> e <> Short -> decode_kind w k (bs ++ more) = DErr e) /\
  (forall bs, decode_kind w k bs <> DFuel) /\
  (forall bs m rest, decode_kind w k bs = DOk m rest -> exists p, p <> [] /\ bs = p ++ rest).
Proof. exact message_streaming. Qed.
Print Assumptions C05_streaming_decode.

Example C05_example :
  decode_kind 64 KAnnounce [x01; x02; x61] = DErr Short /\
  decode_kind 64 KAnnounce [x01; x02; x61; x62; x63] = DOk (Active [x61; x62]) [x63] /\
  decode_kind 64 KAnnounce [x01; x01; xff] = DErr InvalidString /\
  decode_kind 64 KAnnounce [x01; x01; xff; x00] = DErr InvalidString.
Proof. vm_compute. auto. Qed.

(** * C06 *)
Theorem C06_unique_decoding : forall w k (l1 l2 : list (payload k)) bs,
  Forall (wf w k) l1 -> Forall (wf w k) l2 ->
  encodes_seq (encode_kind k) l1 bs -> encodes_seq (encode_kind k) l2 bs -> l1 = l2.
Proof. exact encodes_seq_inj. Qed.
Print Assumptions C06_unique_decoding.

Theorem C06_prefix_free : forall w k (a b : payload k) pa pb, wf w k a -> wf w k b ->
  encode_kind k a = Val pa -> encode_kind k b = Val pb -> ~ strict_prefix (wire pa) (wire pb).
Proof. exact no_prefix. Qed.
Print Assumptions C06_prefix_free.

Example C06_example : encodes_seq (encode_kind KFrame) [5; 300] [x05; x41; x2c].
Proof.
  exists [PInt 1 BE 5], [x41; x2c]. split; [reflexivity|]. split; [|reflexivity].
  exists [PInt 2 BE 16684], []. split; [reflexivity|]. split; reflexivity.
Qed.

(** * C07 *)
Theorem C07_size_prediction : forall k (m : payload k),
  match encode_kind k m with
  | Val ps => default_encode_size (encode_kind k m) = Val (N.of_nat (length (wire ps)))
  | Panic => default_encode_size (encode_kind k m) = Panic
  end.
Proof. exact size_prediction. Qed.
Print Assumptions C07_size_prediction.

Theorem C07_sizer_counts_all_calls : forall ps, sizer ps = N.of_nat (length (wire ps)).
Proof. exact size_any_calls. Qed.
Print Assumptions C07_sizer_counts_all_calls.

Theorem C07_size_overrides :
  (forall v ps, v < 2 ^ 62 -> u64_encode v = Val ps -> varint_size v = N.of_nat (length (wire ps))) /\
  (forall b, default_encode_size (u8_encode b) = Val 1) /\
  (forall z, default_encode_size (i8_encode z) = Val 1) /\
  (forall b, match blob_encode b with
             | Val ps => blob_encode_size b = Val (N.of_nat (length (wire ps)))
             | Panic => blob_encode_size b = Panic
             end).
Proof. exact size_overrides. Qed.
Print Assumptions C07_size_overrides.

Example C07_example : sizer [PInt 8 LE 5; PBuf [[x00]; [x01; x02]]; PBytes 7 3; PUint 3 BE 9] = 17.
Proof. reflexivity. Qed.

(** * C08 *)
Theorem C08_extension_order_irrelevant : forall w l1 l2, ok_extensions w l1 -> Permutation l1 l2 ->
  exists p2, extensions_encode l2 = Val p2 /\
    forall r, exists m, extensions_decode w (wire p2 ++ r) = DOk m r /\
      forall k v, maps_to m k v <-> maps_to l1 k v.
Proof. exact extensions_order. Qed.
Print Assumptions C08_extension_order_irrelevant.

Theorem C08_extension_duplicates_refused : forall w l,
  Forall (fun e => ok_int (fst e) /\ ok_bytes w (snd e)) l -> N.of_nat (length l) < 2 ^ 62 ->
  ~ NoDup (map fst l) ->
  exists ps, extensions_encode l = Val ps /\
    forall r, extensions_decode w (wire ps ++ r) = DErr DupliateParameter.
Proof. exact extensions_dup. Qed.
Print Assumptions C08_extension_duplicates_refused.

Theorem C08_extension_get_set : forall E id (enc : encoder E) (dec : decoder E) v m m' ps,
  enc v = Val ps -> dec (wire ps) = DOk v [] ->
  extensions_set id enc v m = Val m' ->
  extensions_get id dec m' = Some (DOk v []) /\
  (forall k x, k <> id -> (maps_to m' k x <-> maps_to m k x)).
Proof. exact @extensions_get_set. Qed.
Print Assumptions C08_extension_get_set.

Example C08_example : ok_extensions 64 [(1, [x00]); (9, [])] /\
  extensions_decode 64 [x02; x09; x00; x01; x01; x00] = DOk [(9, []); (1, [x00])] [] /\
  extensions_decode 64 [x02; x09; x00; x09; x00] = DErr DupliateParameter.
Proof.
  split; [|vm_compute; auto]. split; [|split].
  - repeat constructor; cbn; intuition discriminate.
  - reflexivity.
  - repeat constructor.
Qed.

(** * C09 *)
(** Full statement (every bitrate decodes to itself) is false: a present bitrate of zero decodes as
    absent.  Everything else is preserved. *)
Theorem C09_bitrate_partial : forall b, match b with Some n => n < 2 ^ 62 | None => True end ->
  exists ps, session_info_encode b = Val ps /\
    forall r, session_info_decode (wire ps ++ r) =
      DOk (if match b with Some 0 => true | _ => false end then None else b) r.
Proof. exact session_info_wire. Qed.
Print Assumptions C09_bitrate_partial.

Theorem C09_bitrate_refuted : exists b ps, session_info_encode b = Val ps /\
  session_info_decode (wire ps) <> DOk b [].
Proof. exists (Some 0), [PInt 1 BE 0]. split; [reflexivity|]. vm_compute. discriminate. Qed.
Print Assumptions C09_bitrate_refuted.

(** * C10 *)
Theorem C10_length_not_truncated_64 : forall bs, usize_decode 64 bs = u64_decode bs.
Proof. exact length_decode_64. Qed.
Print Assumptions C10_length_not_truncated_64.

(** On 32-bit targets exactly the lengths below 2^32 survive. *)
Theorem C10_length_32_partial : forall bs v r, u64_decode bs = DOk v r ->
  (usize_decode 32 bs = DOk v r <-> v < 2 ^ 32).
Proof. exact length_decode_32. Qed.
Print Assumptions C10_length_32_partial.

(** A byte vector announced as 2^32+1 bytes long is read as one byte on a 32-bit target. *)
Theorem C10_length_truncated_refuted : exists bs b,
  u64_decode bs = DOk (2 ^ 32 + 1) [b] /\ vec_decode 32 u8_decode bs = DOk [b] [].
Proof. exists [xc0; x00; x00; x01; x00; x00; x00; x01; x2a], x2a. vm_compute. auto. Qed.
Print Assumptions C10_length_truncated_refuted.

(** * C11 *)
(** Full statement (no collision for any u32 application code) is false for the top 64 codes. *)
Theorem C11_error_codes_distinct_partial : forall m a b ca cb,
  (forall c, a = App c -> c < 2 ^ 32 - 64) -> (forall c, b = App c -> c < 2 ^ 32 - 64) ->
  to_code m a = Val ca -> to_code m b = Val cb -> (ca = cb <-> same_kind a b).
Proof. exact error_codes_distinct. Qed.
Print Assumptions C11_error_codes_distinct_partial.

Theorem C11_to_code_panics_exactly : forall m e,
  to_code m e = Panic <-> m = Debug /\ exists c, e = App c /\ 2 ^ 32 - 64 <= c.
Proof. exact to_code_panics. Qed.
Print Assumptions C11_to_code_panics_exactly.

Theorem C11_error_codes_collide_refuted : exists a b, a < 2 ^ 32 /\
  ~ same_kind (App a) b /\ to_code Release (App a) = to_code Release b.
Proof. exact error_codes_collide. Qed.
Print Assumptions C11_error_codes_collide_refuted.

Example C11_example : to_code Debug (App 3) = Val 67 /\ to_code Debug NotFound = Val 13 /\ ~ same_kind (App 3) NotFound.
Proof. repeat split; intros []. Qed.
