(** Stream priorities and the serving loop. *)
From Coq Require Import NArith ZArith List Lia Bool.
From Coq Require Import Init.Byte Strings.Byte.
From Coq Require Import ZifyBool ZifyNat ZifyN.
From Verif.Model Require Import Base Coding ErrorCode Stream Frame FrameSys Map OriginSys Message Publisher.
From Verif.Spec Require Import PublisherSpec.
From Verif.Proofs Require Import BaseP CodingP.
Import ListNotations.

(** ** Priorities *)
Open Scope N_scope.
Lemma land_24 d : N.land d 0xFFFFFF = d mod 2 ^ 24.
Proof. change 0xFFFFFF with (N.ones 24). apply N.land_ones. Qed.

Lemma mod_sub_24 g : (0xFFFFFF + 2 ^ 32 - g mod 2 ^ 32) mod 2 ^ 24 = 2 ^ 24 - 1 - g mod 2 ^ 24.
Proof.
  pose proof (N.mod_lt g (2 ^ 32) ltac:(discriminate)).
  replace (g mod 2 ^ 24) with ((g mod 2 ^ 32) mod 2 ^ 24).
  2:{ change (2 ^ 32) with (2 ^ 24 * 2 ^ 8). rewrite N.mod_mul_r by discriminate.
      rewrite (N.mul_comm (2 ^ 24)), N.mod_add by discriminate. apply N.mod_mod. discriminate. }
  set (x := g mod 2 ^ 32) in *. clearbody x.
  pose proof (N.div_mod x (2 ^ 24) ltac:(discriminate)) as D.
  pose proof (N.mod_lt x (2 ^ 24) ltac:(discriminate)).
  set (q := x / 2 ^ 24) in *. set (r := x mod 2 ^ 24) in *. clearbody q r.
  change (2 ^ 32) with 4294967296 in *. change (2 ^ 24) with 16777216 in *.
  symmetry. apply (N.mod_unique _ _ (256 - q)); lia.
Qed.

Lemma prio_bits p d : p < 256 -> d < 2 ^ 24 -> N.lor (N.shiftl p 24 mod 2 ^ 32) d = p * 2 ^ 24 + d.
Proof.
  intros Hp Hd. rewrite N.mod_small; [apply lor_tag; exact Hd|].
  rewrite N.shiftl_mul_pow2. change (2 ^ 32) with (256 * 2 ^ 24). apply N.mul_lt_mono_pos_r; [reflexivity|exact Hp].
Qed.

Definition signed (p : N) : Z := if p <? 128 then Z.of_N p else (Z.of_N p - 256)%Z.
Lemma to_i32_bits p d : p < 256 -> d < 2 ^ 24 -> to_i32 (p * 2 ^ 24 + d) = (signed p * 2 ^ 24 + Z.of_N d)%Z.
Proof.
  intros Hp Hd. unfold to_i32, signed. change (2 ^ 31) with 2147483648. change (2 ^ 24) with 16777216 in *.
  change (2 ^ 32)%Z with 4294967296%Z. change (2 ^ 24)%Z with 16777216%Z.
  destruct (p * 16777216 + d <? 2147483648) eqn:E; destruct (p <? 128) eqn:E2; lia.
Qed.

Lemma stream_priority_exact m p q : p < 256 ->
  stream_priority m p q =
    match m with
    | Debug => if 2 ^ 24 <=? q mod 2 ^ 32 then Panic else Val (signed p * 2 ^ 24 + (2 ^ 24 - 1 - Z.of_N (q mod 2 ^ 24)))%Z
    | Release => Val (signed p * 2 ^ 24 + (2 ^ 24 - 1 - Z.of_N (q mod 2 ^ 24)))%Z
    end.
Proof.
  intros Hp. unfold stream_priority.
  pose proof (N.mod_lt q (2 ^ 24) ltac:(discriminate)) as L.
  assert (A : forall d, d mod 2 ^ 24 = 2 ^ 24 - 1 - q mod 2 ^ 24 -> d < 2 ^ 33 ->
    to_i32 (N.lor (N.shiftl p 24 mod 2 ^ 32) ((d mod 2 ^ 32) mod 2 ^ 24)) =
    (signed p * 2 ^ 24 + (2 ^ 24 - 1 - Z.of_N (q mod 2 ^ 24)))%Z).
  { intros d E _.
    replace ((d mod 2 ^ 32) mod 2 ^ 24) with (d mod 2 ^ 24).
    2:{ change (2 ^ 32) with (2 ^ 24 * 2 ^ 8). rewrite N.mod_mul_r by discriminate.
        rewrite (N.mul_comm (2 ^ 24)), N.mod_add by discriminate. symmetry. apply N.mod_mod. discriminate. }
    rewrite E. rewrite prio_bits, to_i32_bits by (try exact Hp; change (2 ^ 24) with 16777216 in *; lia).
    change (2 ^ 24) with 16777216 in *. change (2 ^ 24)%Z with 16777216%Z. lia. }
  destruct (q mod 2 ^ 32 <=? 16777215) eqn:E.
  - assert (S : q mod 2 ^ 32 = q mod 2 ^ 24).
    { assert (X : (q mod 2 ^ 32) mod 2 ^ 24 = q mod 2 ^ 24).
      { change (2 ^ 32) with (2 ^ 24 * 2 ^ 8). rewrite N.mod_mul_r by discriminate.
        rewrite (N.mul_comm (2 ^ 24)), N.mod_add by discriminate. apply N.mod_mod. discriminate. }
      rewrite <- X. symmetry. apply N.mod_small. change (2 ^ 24) with 16777216. lia. }
    rewrite land_24, A.
    + destruct m; [|reflexivity]. replace (2 ^ 24 <=? q mod 2 ^ 32) with false; [reflexivity|].
      symmetry. change (2 ^ 24) with 16777216. lia.
    + rewrite S. rewrite N.mod_small by (change (2 ^ 24) with 16777216 in *; lia).
      change (2 ^ 24) with 16777216 in *. lia.
    + change (2 ^ 33) with 8589934592. lia.
  - destruct m.
    + replace (2 ^ 24 <=? q mod 2 ^ 32) with true; [reflexivity|]. symmetry. change (2 ^ 24) with 16777216. lia.
    + rewrite land_24, A; [reflexivity|apply mod_sub_24|].
      change 16777215 with 0xFFFFFF. change (2 ^ 32) with 4294967296. change (2 ^ 33) with 8589934592. lia.
Qed.

Lemma priority_ordered m p1 q1 p2 q2 : p1 < 128 -> p2 < 128 -> q1 < 2 ^ 24 -> q2 < 2 ^ 24 ->
  exists a b, stream_priority m p1 q1 = Val a /\ stream_priority m p2 q2 = Val b /\
    ((a < b)%Z <-> p1 < p2 \/ (p1 = p2 /\ q2 < q1)).
Proof.
  intros P1 P2 Q1 Q2. change (2 ^ 24) with 16777216 in *.
  assert (K : forall q, q < 16777216 -> q mod 2 ^ 32 = q /\ q mod 2 ^ 24 = q).
  { intros q H. rewrite !N.mod_small; auto; change (2 ^ 32) with 4294967296; change (2 ^ 24) with 16777216; lia. }
  assert (V : forall p q, p < 128 -> q < 16777216 ->
    stream_priority m p q = Val (Z.of_N p * 16777216 + (16777215 - Z.of_N q))%Z).
  { intros p q Hp Hq. rewrite stream_priority_exact by lia. destruct (K q Hq) as [K1 K2]. rewrite K1, K2.
    unfold signed. replace (p <? 128) with true by lia. change (2 ^ 24)%Z with 16777216%Z.
    change (2 ^ 24) with 16777216. replace (16777216 <=? q) with false by lia. destruct m; f_equal; lia. }
  do 2 eexists. rewrite !V by auto. split; [reflexivity|]. split; [reflexivity|]. lia.
Qed.
