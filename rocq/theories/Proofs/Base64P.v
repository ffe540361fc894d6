(** Base64. *)
From Coq Require Import NArith ZArith Arith.
From Coq Require Import Strings.String.
From Coq Require Import List Lia Bool.
From Coq Require Import Init.Byte Strings.Byte.
From Verif.Model Require Import Base Codec Base64 Json Catalog CatalogJson Auth Token.
From Verif.Spec Require Import CodingSpec JsonSpec CatalogJsonSpec TokenSpec.
From Verif.Proofs Require Import BaseP.
Import ListNotations.
Open Scope N_scope.
Local Notation length := List.length.

(** ** Characters *)
Definition upto (n : nat) : list N := map N.of_nat (seq 0 n).
Lemma upto_in n v : In v (upto n) <-> v < N.of_nat n.
Proof.
  unfold upto. rewrite in_map_iff. split.
  - intros (k & <- & I). apply in_seq in I. lia.
  - intros H. exists (N.to_nat v). split; [lia|]. apply in_seq. lia.
Qed.
Lemma check_upto n (f : N -> bool) : forallb f (upto n) = true -> forall v, v < N.of_nat n -> f v = true.
Proof. intros H v L. rewrite forallb_forall in H. apply H, upto_in, L. Qed.
Lemma alphabet_char v : v < 64 -> nth_error alphabet (N.to_nat v) = Some (b64_char v).
Proof.
  intros L. pose proof (check_upto 64 (fun v => match nth_error alphabet (N.to_nat v) with Some c => Byte.eqb c (b64_char v) | None => false end) eq_refl v L) as H.
  cbv beta in H. destruct (nth_error alphabet (N.to_nat v)) as [c|]; [|discriminate]. f_equal. apply Byte.byte_dec_bl. exact H.
Qed.
Lemma alphabet_iff c v : nth_error alphabet (N.to_nat v) = Some c <-> v < 64 /\ c = b64_char v.
Proof.
  split.
  - intros H. assert (L : (N.to_nat v < 64)%nat) by (apply (proj1 (nth_error_Some alphabet _)); congruence).
    assert (v < 64) by lia. split; [assumption|]. rewrite (alphabet_char v) in H by assumption. congruence.
  - intros [L ->]. apply alphabet_char. exact L.
Qed.
Lemma value_char v : v < 64 -> b64_value (b64_char v) = Some v.
Proof.
  intros L. pose proof (check_upto 64 (fun v => match b64_value (b64_char v) with Some w => w =? v | None => false end) eq_refl v L) as H.
  cbv beta in H. destruct (b64_value (b64_char v)); [|discriminate]. apply N.eqb_eq in H. congruence.
Qed.
Lemma value_some c v : b64_value c = Some v -> v < 64 /\ c = b64_char v.
Proof.
  assert (H : match b64_value c with Some v => (v <? 64) && Byte.eqb c (b64_char v) | None => true end = true) by (destruct c; reflexivity).
  intros E. rewrite E in H. apply andb_true_iff in H. destruct H as [A B]. split; [apply N.ltb_lt; exact A|apply Byte.byte_dec_bl; exact B].
Qed.
Definition chars (vs : list N) : bytes := map b64_char vs.
Definition small (vs : list N) : Prop := Forall (fun v => v < 64) vs.
Lemma values_iff t vs : b64_values t = Some vs <-> small vs /\ t = chars vs.
Proof.
  revert vs. induction t as [|c t IH]; intros vs; cbn.
  - split; [intros [= <-]; split; [constructor|reflexivity]|]. intros [_ E]. destruct vs; [reflexivity|discriminate].
  - split.
    + destruct (b64_value c) as [v|] eqn:E; [|discriminate]. destruct (b64_values t) as [l|]; [|discriminate]. intros [= <-].
      apply value_some in E. destruct E as [A ->]. destruct (proj1 (IH l) eq_refl) as [B ->]. split; [constructor; assumption|reflexivity].
    + intros [S E]. destruct vs as [|v vs]; [discriminate|]. injection E as -> ->. inversion S; subst. rewrite value_char by assumption.
      rewrite (proj2 (IH vs)); [reflexivity|]. auto.
Qed.
Lemma alphabet_all t vs : Forall2 (fun c v => nth_error alphabet (N.to_nat v) = Some c) t vs <-> small vs /\ t = chars vs.
Proof.
  revert vs. induction t as [|c t IH]; intros vs.
  - split; [inversion 1; subst; split; [constructor|reflexivity]|]. intros [_ E]. destruct vs; [constructor|discriminate].
  - split.
    + inversion 1 as [|? v ? l A B]; subst. apply alphabet_iff in A. destruct A as [A ->]. apply IH in B. destruct B as [B ->].
      split; [constructor; assumption|reflexivity].
    + intros [S E]. destruct vs as [|v vs]; [discriminate|]. injection E as -> ->. inversion S; subst. constructor; [apply alphabet_iff; auto|].
      apply IH. auto.
Qed.

(** ** Bits *)
Lemma bits_len n x : length (bits n x) = n.
Proof. induction n; cbn; congruence. Qed.
Fixpoint beqs (a b : list bool) : bool := match a, b with [], [] => true | x :: a, y :: b => Bool.eqb x y && beqs a b | _, _ => false end.
Lemma beqs_eq a : forall b, beqs a b = true -> a = b.
Proof.
  induction a as [|x a IH]; intros [|y b]; cbn; try congruence. intros H. apply andb_true_iff in H. destruct H as [H1 H2].
  apply eqb_prop in H1. apply IH in H2. congruence.
Qed.
Lemma bits_8_62 a : a < 256 -> bits 8 a = bits 6 (a / 4) ++ bits 2 (a mod 4).
Proof. intros L. apply beqs_eq. exact (check_upto 256 (fun a => beqs (bits 8 a) (bits 6 (a / 4) ++ bits 2 (a mod 4))) eq_refl a L). Qed.
Lemma bits_8_44 a : a < 256 -> bits 8 a = bits 4 (a / 16) ++ bits 4 (a mod 16).
Proof. intros L. apply beqs_eq. exact (check_upto 256 (fun a => beqs (bits 8 a) (bits 4 (a / 16) ++ bits 4 (a mod 16))) eq_refl a L). Qed.
Lemma bits_8_26 a : a < 256 -> bits 8 a = bits 2 (a / 64) ++ bits 6 (a mod 64).
Proof. intros L. apply beqs_eq. exact (check_upto 256 (fun a => beqs (bits 8 a) (bits 2 (a / 64) ++ bits 6 (a mod 64))) eq_refl a L). Qed.
Lemma bits_6_24 x y : x < 4 -> y < 16 -> bits 6 (x * 16 + y) = bits 2 x ++ bits 4 y.
Proof.
  intros A B. apply beqs_eq. refine (check_upto 16 (fun y => beqs (bits 6 (x * 16 + y)) (bits 2 x ++ bits 4 y)) _ y B).
  exact (check_upto 4 (fun x => forallb (fun y => beqs (bits 6 (x * 16 + y)) (bits 2 x ++ bits 4 y)) (upto 16)) eq_refl x A).
Qed.
Lemma bits_6_42 x y : x < 16 -> y < 4 -> bits 6 (x * 4 + y) = bits 4 x ++ bits 2 y.
Proof.
  intros A B. apply beqs_eq. refine (check_upto 4 (fun y => beqs (bits 6 (x * 4 + y)) (bits 4 x ++ bits 2 y)) _ y B).
  exact (check_upto 16 (fun x => forallb (fun y => beqs (bits 6 (x * 4 + y)) (bits 4 x ++ bits 2 y)) (upto 4)) eq_refl x A).
Qed.
Lemma bits_inj v w : v < 64 -> w < 64 -> bits 6 v = bits 6 w -> v = w.
Proof.
  intros A B E. pose proof (check_upto 64 (fun v => forallb (fun w => implb (beqs (bits 6 v) (bits 6 w)) (v =? w)) (upto 64)) eq_refl v A) as H.
  cbv beta in H. pose proof (check_upto 64 _ H w B) as K. cbv beta in K. rewrite E in K.
  assert (R : forall l, beqs l l = true) by (induction l as [|x l IH]; cbn; [reflexivity|rewrite eqb_reflx; exact IH]).
  rewrite R in K. apply N.eqb_eq. exact K.
Qed.

(** ** The sextets of some bytes *)
Fixpoint sextets (s : bytes) : list N :=
  match s with
  | [] => []
  | [a] => [n_of a / 4; n_of a mod 4 * 16]
  | [a; b] => [n_of a / 4; n_of a mod 4 * 16 + n_of b / 16; n_of b mod 16 * 4]
  | a :: b :: c :: r => n_of a / 4 :: n_of a mod 4 * 16 + n_of b / 16 :: n_of b mod 16 * 4 + n_of c / 64 :: n_of c mod 64 :: sextets r
  end.
Lemma by_three (P : bytes -> Prop) : P [] -> (forall a, P [a]) -> (forall a b, P [a; b]) -> (forall a b c r, P r -> P (a :: b :: c :: r)) -> forall s, P s.
Proof.
  intros P0 P1 P2 P3 s. assert (H : forall n s, (length s <= n)%nat -> P s); [|eapply H; reflexivity].
  induction n as [|n IH]; intros [|a [|b [|c r]]] L; auto; cbn in L; try lia. apply P3, IH. lia.
Qed.
Lemma n_of_256 b : n_of b < 256. Proof. apply n_of_lt. Qed.
Ltac Nar := repeat match goal with
  | |- context [?a / ?b] => lazymatch goal with H : a = b * (a / b) + a mod b |- _ => fail | _ => pose proof (N.div_mod a b ltac:(discriminate)); pose proof (N.mod_lt a b ltac:(discriminate)) end
  | |- context [?a mod ?b] => lazymatch goal with H : a = b * (a / b) + a mod b |- _ => fail | _ => pose proof (N.div_mod a b ltac:(discriminate)); pose proof (N.mod_lt a b ltac:(discriminate)) end
  end; lia.
Lemma sextets_small s : small (sextets s).
Proof.
  induction s as [|a|a b|a b c r IH] using by_three; cbn [sextets].
  - constructor.
  - pose proof (n_of_256 a). repeat constructor; Nar.
  - pose proof (n_of_256 a). pose proof (n_of_256 b). repeat constructor; Nar.
  - pose proof (n_of_256 a). pose proof (n_of_256 b). pose proof (n_of_256 c). repeat (constructor; [Nar|]). exact IH.
Qed.
Lemma encode_sextets s : b64_encode s = chars (sextets s).
Proof. induction s as [|a|a b|a b c r IH] using by_three; try reflexivity. cbn [b64_encode sextets chars map]. rewrite IH. reflexivity. Qed.
Lemma bytes_sextets s : b64_bytes (sextets s) = Some s.
Proof.
  assert (Q : forall a n, n = n_of a -> u8 n = a).
  { intros a n ->. apply u8_n_of. }
  induction s as [|a|a b|a b c r IH] using by_three; cbn [sextets b64_bytes].
  - reflexivity.
  - pose proof (n_of_256 a). assert (E : (n_of a mod 4 * 16) mod 16 = 0) by (apply N.mod_mul; discriminate). rewrite E. cbn [N.eqb].
    rewrite (Q a); [reflexivity|]. rewrite N.div_mul by discriminate. Nar.
  - pose proof (n_of_256 a). pose proof (n_of_256 b).
    assert (E : (n_of b mod 16 * 4) mod 4 = 0) by (apply N.mod_mul; discriminate). rewrite E. cbn [N.eqb].
    assert (D : (n_of a mod 4 * 16 + n_of b / 16) / 16 = n_of a mod 4 /\ (n_of a mod 4 * 16 + n_of b / 16) mod 16 = n_of b / 16).
    { rewrite N.add_comm. split; [rewrite N.div_add by discriminate; rewrite N.div_small; [reflexivity|Nar]|].
      rewrite N.mod_add by discriminate. apply N.mod_small. Nar. }
    destruct D as [D1 D2]. rewrite D1, D2, N.div_mul by discriminate. rewrite (Q a), (Q b); [reflexivity|Nar..].
  - pose proof (n_of_256 a). pose proof (n_of_256 b). pose proof (n_of_256 c). rewrite IH.
    assert (D : (n_of a mod 4 * 16 + n_of b / 16) / 16 = n_of a mod 4 /\ (n_of a mod 4 * 16 + n_of b / 16) mod 16 = n_of b / 16).
    { rewrite N.add_comm. split; [rewrite N.div_add by discriminate; rewrite N.div_small; [reflexivity|Nar]|].
      rewrite N.mod_add by discriminate. apply N.mod_small. Nar. }
    assert (F : (n_of b mod 16 * 4 + n_of c / 64) / 4 = n_of b mod 16 /\ (n_of b mod 16 * 4 + n_of c / 64) mod 4 = n_of c / 64).
    { rewrite N.add_comm. split; [rewrite N.div_add by discriminate; rewrite N.div_small; [reflexivity|Nar]|].
      rewrite N.mod_add by discriminate. apply N.mod_small. Nar. }
    destruct D as [D1 D2], F as [F1 F2]. rewrite D1, D2, F1, F2. rewrite (Q a), (Q b), (Q c); [reflexivity|Nar..].
Qed.
Lemma by_four (P : list N -> Prop) : P [] -> (forall a, P [a]) -> (forall a b, P [a; b]) -> (forall a b c, P [a; b; c]) -> (forall a b c d r, P r -> P (a :: b :: c :: d :: r)) -> forall s, P s.
Proof.
  intros P0 P1 P2 P3 P4 s. assert (H : forall n s, (length s <= n)%nat -> P s); [|eapply H; reflexivity].
  induction n as [|n IH]; intros [|a [|b [|c [|d r]]]] L; auto; cbn in L; try lia. apply P4, IH. lia.
Qed.
Lemma n_of_u8 n : n < 256 -> n_of (u8 n) = n.
Proof. intros L. rewrite n_of_u8. apply N.mod_small. exact L. Qed.
Lemma bytes_some vs : small vs -> forall s, b64_bytes vs = Some s -> vs = sextets s.
Proof.
  induction vs as [|v|v w|v w x|v w x y r IH] using by_four; intros S s; cbn [b64_bytes].
  - intros [= <-]. reflexivity.
  - discriminate.
  - inversion S as [|? ? A S1]; subst. inversion S1 as [|? ? B _]; subst. destruct (N.eqb_spec (w mod 16) 0) as [E|]; [|discriminate]. intros [= <-].
    cbn [sextets]. rewrite n_of_u8 by Nar.
    assert (D : (v * 4 + w / 16) / 4 = v /\ (v * 4 + w / 16) mod 4 = w / 16).
    { rewrite N.add_comm. split; [rewrite N.div_add by discriminate; rewrite N.div_small; [reflexivity|Nar]|].
      rewrite N.mod_add by discriminate. apply N.mod_small. Nar. }
    destruct D as [-> ->]. f_equal. f_equal. Nar.
  - inversion S as [|? ? A S1]; subst. inversion S1 as [|? ? B S2]; subst. inversion S2 as [|? ? C _]; subst.
    destruct (N.eqb_spec (x mod 4) 0) as [E|]; [|discriminate]. intros [= <-]. cbn [sextets]. rewrite !n_of_u8 by Nar.
    assert (D : (v * 4 + w / 16) / 4 = v /\ (v * 4 + w / 16) mod 4 = w / 16).
    { rewrite N.add_comm. split; [rewrite N.div_add by discriminate; rewrite N.div_small; [reflexivity|Nar]|].
      rewrite N.mod_add by discriminate. apply N.mod_small. Nar. }
    assert (F : (w mod 16 * 16 + x / 4) / 16 = w mod 16 /\ (w mod 16 * 16 + x / 4) mod 16 = x / 4).
    { rewrite N.add_comm. split; [rewrite N.div_add by discriminate; rewrite N.div_small; [reflexivity|Nar]|].
      rewrite N.mod_add by discriminate. apply N.mod_small. Nar. }
    destruct D as [-> ->], F as [-> ->]. f_equal. f_equal; [Nar|]. f_equal. Nar.
  - inversion S as [|? ? A S1]; subst. inversion S1 as [|? ? B S2]; subst. inversion S2 as [|? ? C S3]; subst. inversion S3 as [|? ? D0 S4]; subst.
    destruct (b64_bytes r) as [l|] eqn:E; [|discriminate]. intros [= <-]. cbn [sextets]. rewrite <- (IH S4 l eq_refl). rewrite !n_of_u8 by Nar.
    assert (D : (v * 4 + w / 16) / 4 = v /\ (v * 4 + w / 16) mod 4 = w / 16).
    { rewrite N.add_comm. split; [rewrite N.div_add by discriminate; rewrite N.div_small; [reflexivity|Nar]|].
      rewrite N.mod_add by discriminate. apply N.mod_small. Nar. }
    assert (F : (w mod 16 * 16 + x / 4) / 16 = w mod 16 /\ (w mod 16 * 16 + x / 4) mod 16 = x / 4).
    { rewrite N.add_comm. split; [rewrite N.div_add by discriminate; rewrite N.div_small; [reflexivity|Nar]|].
      rewrite N.mod_add by discriminate. apply N.mod_small. Nar. }
    assert (G : (x mod 4 * 64 + y) / 64 = x mod 4 /\ (x mod 4 * 64 + y) mod 64 = y).
    { rewrite N.add_comm. split; [rewrite N.div_add by discriminate; rewrite N.div_small; [reflexivity|Nar]|].
      rewrite N.mod_add by discriminate. apply N.mod_small. Nar. }
    destruct D as [-> ->], F as [-> ->], G as [-> ->]. f_equal. f_equal; [Nar|]. f_equal. Nar.
Qed.
Theorem decode_encode s t : b64_decode t = Some s <-> t = b64_encode s.
Proof.
  unfold b64_decode. rewrite encode_sextets. split.
  - destruct (b64_values t) as [vs|] eqn:E; [|discriminate]. apply values_iff in E. destruct E as [S ->]. intros H. f_equal. apply bytes_some; assumption.
  - intros ->. rewrite (proj2 (values_iff _ (sextets s)) (conj (sextets_small s) eq_refl)). apply bytes_sextets.
Qed.

(** ** The same bits *)
Definition spare (s : bytes) : nat := match (length s mod 3)%nat with 1%nat => 4 | 2%nat => 2 | _ => 0 end.
Lemma sextets_bits s : exists z, (z < 6)%nat /\ flat_map (bits 6) (sextets s) = flat_map (fun b => bits 8 (n_of b)) s ++ repeat false z.
Proof.
  induction s as [|a|a b|a b c r (z & Z & IH)] using by_three; cbn [sextets flat_map].
  - exists 0%nat. split; [lia|reflexivity].
  - exists 4%nat. split; [lia|]. pose proof (n_of_256 a). rewrite (bits_8_62 (n_of a)) by assumption.
    replace (n_of a mod 4 * 16) with (n_of a mod 4 * 16 + 0) by lia. rewrite bits_6_24; [|Nar|lia]. rewrite !app_nil_r, <- !app_assoc. reflexivity.
  - exists 2%nat. split; [lia|]. pose proof (n_of_256 a). pose proof (n_of_256 b). rewrite (bits_8_62 (n_of a)), (bits_8_44 (n_of b)) by assumption.
    replace (n_of b mod 16 * 4) with (n_of b mod 16 * 4 + 0) by lia. rewrite bits_6_24; [|Nar..]. rewrite bits_6_42; [|Nar|lia]. rewrite !app_nil_r, <- !app_assoc. reflexivity.
  - exists z. split; [exact Z|]. pose proof (n_of_256 a). pose proof (n_of_256 b). pose proof (n_of_256 c).
    rewrite (bits_8_62 (n_of a)), (bits_8_44 (n_of b)), (bits_8_26 (n_of c)) by assumption. rewrite bits_6_24; [|Nar..]. rewrite bits_6_42; [|Nar..].
    rewrite IH, <- !app_assoc. reflexivity.
Qed.
Lemma flat_len {A} n (f : A -> list bool) l : (forall x, length (f x) = n) -> length (flat_map f l) = (n * length l)%nat.
Proof. intros H. induction l as [|x l IH]; cbn; [lia|]. rewrite app_length, H, IH. lia. Qed.
Lemma app_inj_len {A} (a : list A) : forall b c d, length a = length b -> a ++ c = b ++ d -> a = b /\ c = d.
Proof. induction a as [|x a IH]; intros [|y b] c d L E; cbn in *; try discriminate; [auto|]. injection E as -> E. destruct (IH b c d); [lia|exact E|]. subst. auto. Qed.
Lemma flat_bits_inj vs : small vs -> forall ws, small ws -> flat_map (bits 6) vs = flat_map (bits 6) ws -> vs = ws.
Proof.
  induction 1 as [|v vs V S IH]; intros ws W E.
  - apply (f_equal (@length bool)) in E. rewrite !(flat_len 6) in E by (intros; apply bits_len). destruct ws; [reflexivity|cbn in E; lia].
  - destruct W as [|w ws Hw W]; [apply (f_equal (@length bool)) in E; rewrite !(flat_len 6) in E by (intros; apply bits_len); cbn in E; lia|].
    cbn [flat_map] in E. apply app_inj_len in E; [|rewrite !bits_len; reflexivity]. destruct E as [E1 E2].
    f_equal; [apply bits_inj; assumption|apply IH; assumption].
Qed.
Theorem encode_base64 t s : base64 t s <-> t = b64_encode s.
Proof.
  rewrite encode_sextets. destruct (sextets_bits s) as (z & Z & B). split.
  - intros (vs & z' & F & Z' & E). apply alphabet_all in F. destruct F as [S ->]. f_equal. apply flat_bits_inj; [exact S|apply sextets_small|].
    assert (z = z') as <-; [|congruence]. apply (f_equal (@length bool)) in E, B.
    rewrite (flat_len 6), app_length, (flat_len 8), repeat_length in E by (intros; apply bits_len).
    rewrite (flat_len 6), app_length, (flat_len 8), repeat_length in B by (intros; apply bits_len). lia.
  - intros ->. exists (sextets s), z. split; [apply alphabet_all; split; [apply sextets_small|reflexivity]|]. auto.
Qed.
Theorem decode_base64 t s : b64_decode t = Some s <-> base64 t s.
Proof. rewrite decode_encode, encode_base64. reflexivity. Qed.

(** ** Padding *)
Lemma char_not_equals v : v < 64 -> b64_char v <> equals.
Proof. intros L E. pose proof (value_char v L) as H. rewrite E in H. discriminate. Qed.
Lemma unpad_pad t n : ~ In equals t -> unpad (t ++ repeat equals n) = (t, n).
Proof.
  induction t as [|b t IH]; intros NI; cbn [app unpad].
  - induction n as [|n IH]; cbn [repeat unpad]; [reflexivity|]. rewrite IH. reflexivity.
  - rewrite IH by (intros H; apply NI; right; exact H). destruct t; [|reflexivity]. destruct (Byte.eqb b equals) eqn:E; [|reflexivity].
    apply Byte.byte_dec_bl in E. destruct NI. left. exact E.
Qed.
Lemma unpad_split s : s = fst (unpad s) ++ repeat equals (snd (unpad s)).
Proof.
  induction s as [|b s IH]; cbn [unpad]; [reflexivity|]. destruct (unpad s) as [t n]. cbn [fst snd] in IH. rewrite IH. destruct t as [|a t]; [|reflexivity].
  destruct (Byte.eqb b equals) eqn:E; cbn; [apply Byte.byte_dec_bl in E; subst b; reflexivity|reflexivity].
Qed.
Lemma encode_no_equals s : ~ In equals (b64_encode s).
Proof.
  rewrite encode_sextets. intros I. apply in_map_iff in I. destruct I as (v & E & I). pose proof (sextets_small s) as S. unfold small in S.
  rewrite Forall_forall in S. exact (char_not_equals v (S v I) E).
Qed.
Lemma missing_iff u n : (n <= b64_missing u <-> n = 0 \/ (n < 4 /\ exists m, u + n <= 4 * m /\ 4 * m < u + 4))%nat.
Proof.
  unfold b64_missing. pose proof (Nat.div_mod u 4 ltac:(discriminate)) as D. pose proof (Nat.mod_upper_bound u 4 ltac:(discriminate)) as M.
  set (q := (u / 4)%nat) in *. set (r := (u mod 4)%nat) in *.
  assert (E : ((4 - r) mod 4 = if Nat.eqb r 0 then 0 else 4 - r)%nat) by (destruct r as [|[|[|[|]]]]; [reflexivity..|lia]).
  rewrite E. destruct (Nat.eqb_spec r 0) as [->|N].
  - split; [intros H; left; lia|]. intros [H|(H & m & A & B)]; [lia|]. assert (m = q) by lia. lia.
  - split.
    + intros H. right. split; [lia|]. exists (S q). lia.
    + intros [H|(H & m & A & B)]; [lia|]. assert (m <= S q)%nat by lia. lia.
Qed.
Theorem unpadded_exact t s : b64_unpadded t = Some s <-> padded64 t s.
Proof.
  unfold b64_unpadded, padded64. split.
  - pose proof (unpad_split t) as E. destruct (unpad t) as [u n]. cbn [fst snd] in E. destruct (Nat.leb_spec n (b64_missing (length u))) as [L|]; [|discriminate].
    intros H. exists u, n. split; [exact E|]. split; [apply decode_base64; exact H|apply missing_iff; exact L].
  - intros (u & n & -> & B & P). apply encode_base64 in B. subst u. change "="%byte with equals.
    rewrite unpad_pad by apply encode_no_equals. apply missing_iff in P. rewrite (proj2 (Nat.leb_le _ _) P). apply decode_encode. reflexivity.
Qed.
Lemma padded_exact s : padded64 (b64_padded s) s.
Proof.
  exists (b64_encode s), (b64_missing (length (b64_encode s))). split; [reflexivity|]. split; [apply encode_base64; reflexivity|]. apply missing_iff. lia.
Qed.

(** ** What base64 text looks like *)
Lemma encode_chars s b : In b (b64_encode s) -> exists v, v < 64 /\ b = b64_char v.
Proof.
  rewrite encode_sextets. intros I. apply in_map_iff in I. destruct I as (v & <- & I). exists v. split; [|reflexivity].
  pose proof (sextets_small s) as S. unfold small in S. rewrite Forall_forall in S. apply S. exact I.
Qed.
Lemma char_in v b : v < 64 -> b = b64_char v -> In b alphabet.
Proof. intros L ->. eapply nth_error_In. apply alphabet_char. exact L. Qed.
Lemma encode_alphabet s b : In b (b64_encode s) -> In b alphabet.
Proof. intros I. apply encode_chars in I. destruct I as (v & L & E). eapply char_in; eauto. Qed.
Lemma encode_inj s t : b64_encode s = b64_encode t -> s = t.
Proof. intros E. assert (H : b64_decode (b64_encode s) = Some s) by (apply decode_encode; reflexivity). apply decode_encode in E. congruence. Qed.
