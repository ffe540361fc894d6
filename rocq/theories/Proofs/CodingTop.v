(** Lemmas in the shape of the property statements for the wire coding. *)
From Coq Require Import NArith ZArith List Lia Bool Permutation.
From Coq Require Import Init.Byte Strings.Byte.
From Coq Require Import ZifyBool ZifyNat ZifyN.
From Verif.Model Require Import Base Coding Message ErrorCode.
From Verif.Spec Require Import CodingSpec MessageSpec ErrorSpec.
From Verif.Proofs Require Import BaseP CodingP MessageP.
Import ListNotations.
Open Scope N_scope.

Lemma varint_roundtrip v rest : v < 2 ^ 62 ->
  exists ps, u64_encode v = Val ps /\ u64_decode (wire ps ++ rest) = DOk v rest.
Proof. intros H. destruct (rt_u64 v H) as (ps & E & D). eauto. Qed.

Lemma varint_shortest v : v < 2 ^ 62 ->
  exists ps, u64_encode v = Val ps /\ is_shortest_varint v (wire ps).
Proof.
  intros H. destruct (varint_encode_form v H) as (ps & k & E & Hk & _ & Hf & _ & Hmin).
  exists ps. split; [exact E|]. exists k. split; [exact Hk|]. split; [exact Hf|].
  intros k' Hk' (bs & _ & Hv & _). specialize (Hmin k' Hk'). lia.
Qed.

Lemma varint_conversions v :
  (varint_try_from v = if v <? 2 ^ 62 then Some v else None) /\
  (forall bits, varint_narrow bits v = if v <? 2 ^ bits then Some v else None).
Proof.
  split.
  - unfold varint_try_from. rewrite varint_max_spec.
    destruct (v <=? 2 ^ 62 - 1) eqn:E; destruct (v <? 2 ^ 62) eqn:E2; auto; cst; lia.
  - intros bits. unfold varint_narrow.
    assert (0 < 2 ^ bits) by (pose proof (N.pow_nonzero 2 bits); lia).
    destruct (v <=? 2 ^ bits - 1) eqn:E; destruct (v <? 2 ^ bits) eqn:E2; auto; try lia.
    rewrite N.mod_small by lia. reflexivity.
Qed.

Lemma varint_decode_exact bs :
  (forall v rest, u64_decode bs = DOk v rest <-> exists p, bs = p ++ rest /\ is_varint v p) /\
  (u64_decode bs = DErr Short <->
     match bs with [] => True | b :: _ => N.of_nat (length bs) < varint_len_of_first b end) /\
  (forall e, u64_decode bs = DErr e -> e = Short) /\ u64_decode bs <> DFuel.
Proof.
  split; [|split; [|split]].
  - intros v rest. split.
    + apply varint_decode_sound.
    + intros (p & -> & k & Hk & Hf). eapply varint_decode_complete; eauto.
  - destruct bs as [|b l]; [split; [auto|reflexivity]|].
    unfold u64_decode. rewrite varint_decode_cons. cbv zeta. unfold varint_len_of_first.
    change (Byte.to_N b) with (n_of b). set (n := 2 ^ (n_of b / 64)).
    assert (n <> 0) by (unfold n; apply N.pow_nonzero; lia).
    unfold len. cbn [length].
    destruct (N.of_nat (length l) <? n - 1) eqn:E; split; try discriminate; try reflexivity; lia.
  - intros e. apply varint_decode_err.
  - apply (g_total _ good_u64).
Qed.

Lemma varint_value_bound bs v rest : u64_decode bs = DOk v rest -> v < 2 ^ 62.
Proof. intros H. apply varint_decode_sound in H. destruct H as (p & _ & Hp). eapply is_varint_lt; eauto. Qed.

Lemma message_roundtrip w k (m : payload k) rest : wf w k m ->
  exists ps, encode_kind k m = Val ps /\ decode_kind w k (wire ps ++ rest) = DOk m rest.
Proof. intros H. destruct (rt_kind w k m H) as (ps & E & D). eauto. Qed.

Lemma message_streaming w k :
  (forall (m : payload k) ps p, wf w k m -> encode_kind k m = Val ps -> strict_prefix p (wire ps) ->
     decode_kind w k p = DErr Short) /\
  (forall bs m rest more, decode_kind w k bs = DOk m rest -> decode_kind w k (bs ++ more) = DOk m (rest ++ more)) /\
  (forall bs e more, decode_kind w k bs = DErr e -> e <> Short -> decode_kind w k (bs ++ more) = DErr e) /\
  (forall bs, decode_kind w k bs <> DFuel) /\
  (forall bs m rest, decode_kind w k bs = DOk m rest -> exists p, p <> [] /\ bs = p ++ rest).
Proof.
  pose proof (good_kind w k) as G. repeat split.
  - intros m ps p Hm E Hp. eapply rt_good_short; eauto. apply rt_kind.
  - apply (g_ok _ G).
  - apply (g_err _ G).
  - apply (g_total _ G).
  - intros bs m rest H. destruct (g_suffix _ G _ _ _ H) as [p ->]. exists p. split; [|reflexivity].
    intros ->. apply eats_kind in H. cbn in H. lia.
Qed.

Lemma size_prediction k (m : payload k) :
  match encode_kind k m with
  | Val ps => default_encode_size (encode_kind k m) = Val (N.of_nat (length (wire ps)))
  | Panic => default_encode_size (encode_kind k m) = Panic
  end.
Proof. destruct (encode_kind k m); [|reflexivity]. cbn. rewrite sizer_spec. reflexivity. Qed.

Lemma size_any_calls ps : sizer ps = N.of_nat (length (wire ps)).
Proof. apply sizer_spec. Qed.

Lemma size_overrides :
  (forall v ps, v < 2 ^ 62 -> u64_encode v = Val ps -> varint_size v = N.of_nat (length (wire ps))) /\
  (forall b, default_encode_size (u8_encode b) = Val 1) /\
  (forall z, default_encode_size (i8_encode z) = Val 1) /\
  (forall b, match blob_encode b with
             | Val ps => blob_encode_size b = Val (N.of_nat (length (wire ps)))
             | Panic => blob_encode_size b = Panic
             end).
Proof.
  split; [|split; [|split]]; try (intros; reflexivity).
  - intros v ps Hv E. destruct (varint_encode_form v Hv) as (ps' & k & E' & Hk & Hs & (Hl & _) & _).
    rewrite E in E'. injection E' as <-. rewrite Hs, <- Hl. reflexivity.
  - intros b. unfold blob_encode, blob_encode_size. destruct (u64_encode (len b)) as [p|]; cbn; [|reflexivity].
    rewrite sizer_spec, wire_app. cbn. rewrite app_nil_r. fold (len (wire p ++ b)). rewrite len_app. reflexivity.
Qed.

Lemma session_info_wire b : match b with Some n => n < 2 ^ 62 | None => True end ->
  exists ps, session_info_encode b = Val ps /\
    forall r, session_info_decode (wire ps ++ r) = DOk (if match b with Some 0 => true | _ => false end then None else b) r.
Proof.
  intros H. destruct b as [[|p]|].
  - destruct (rt_session_info 64 None I) as (ps & E & D). exists ps. split; [exact E|exact D].
  - destruct (rt_session_info 64 (Some (N.pos p))) as (ps & E & D). { split; [exact H|discriminate]. }
    exists ps. split; [exact E|exact D].
  - destruct (rt_session_info 64 None I) as (ps & E & D). exists ps. split; [exact E|exact D].
Qed.

Lemma length_decode_64 bs : usize_decode 64 bs = u64_decode bs.
Proof. apply usize64. Qed.

Lemma length_decode_32 bs v r : u64_decode bs = DOk v r ->
  (usize_decode 32 bs = DOk v r <-> v < 2 ^ 32).
Proof.
  intros H. unfold usize_decode. change varint_decode with u64_decode. rewrite H. cbn [dmap dbind]. split.
  - intros [= E]. rewrite <- E. apply N.mod_lt. discriminate.
  - intros E. rewrite N.mod_small by exact E. reflexivity.
Qed.

(** ** Error codes *)
Lemma error_codes_distinct m a b ca cb :
  (forall c, a = App c -> c < 2 ^ 32 - 64) -> (forall c, b = App c -> c < 2 ^ 32 - 64) ->
  to_code m a = Val ca -> to_code m b = Val cb -> (ca = cb <-> same_kind a b).
Proof.
  intros Ha Hb. unfold to_code.
  destruct a; try (intros [= <-]); destruct b; try (intros [= <-]);
    try (cbn; split; [lia|]; tauto); try (cbn; tauto).
  all: try (specialize (Ha _ eq_refl)); try (specialize (Hb _ eq_refl)).
  all: repeat match goal with |- context [if ?c then _ else _] => destruct c eqn:? end;
    intros; repeat match goal with H : Val _ = Val _ |- _ => injection H as <- end; cbn; cst; lia.
Qed.

Lemma to_code_panics m e : to_code m e = Panic <-> m = Debug /\ exists c, e = App c /\ 2 ^ 32 - 64 <= c.
Proof.
  unfold to_code. split.
  - destruct e; try discriminate. destruct (code + 64 <? 2 ^ 32) eqn:E; [discriminate|].
    destruct m; [|discriminate]. intros _. split; [reflexivity|]. exists code. split; [reflexivity|]. cst; lia.
  - intros (-> & c & -> & Hc). destruct (c + 64 <? 2 ^ 32) eqn:E; [cst; lia|reflexivity].
Qed.

Lemma error_codes_collide : exists a b, a < 2 ^ 32 /\
  ~ same_kind (App a) b /\ to_code Release (App a) = to_code Release b.
Proof. exists (2 ^ 32 - 64), Cancel. split; [reflexivity|]. split; [intros []|reflexivity]. Qed.
