From Coq Require Import NArith ZArith List Lia Bool.
From Coq Require Import Init.Byte Strings.Byte.
From Coq Require Import ZifyBool ZifyNat ZifyN.
From Verif.Model Require Import Base.
From Verif.Spec Require Import CodingSpec.
Import ListNotations.
Open Scope N_scope.

Ltac Zify.zify_post_hook ::= Z.div_mod_to_equations.

(** Evaluate closed powers everywhere. *)
Ltac is_pos p := match p with xH => idtac | xO ?q => is_pos q | xI ?q => is_pos q end.
Ltac is_N n := match n with N0 => idtac | Npos ?p => is_pos p end.
Ltac cst_term t := let y := eval vm_compute in t in is_N y; change t with y in *.
Ltac cst := repeat match goal with
  | |- context [N.pow ?a ?b] => cst_term (N.pow a b)
  | H : context [N.pow ?a ?b] |- _ => cst_term (N.pow a b)
  end.

Lemma n_of_lt b : n_of b < 256.
Proof. unfold n_of. pose proof (Byte.to_N_bounded b). lia. Qed.

Lemma n_of_u8 n : n_of (u8 n) = n mod 256.
Proof.
  unfold u8, n_of. destruct (Byte.of_N (n mod 256)) eqn:E.
  - apply Byte.to_of_N in E. exact E.
  - apply Byte.of_N_None_iff in E. lia.
Qed.

Lemma u8_n_of b : u8 (n_of b) = b.
Proof.
  unfold u8. rewrite N.mod_small by apply n_of_lt. unfold n_of. rewrite Byte.of_to_N. reflexivity.
Qed.

Lemma n_of_inj a b : n_of a = n_of b -> a = b.
Proof. intros H. rewrite <- (u8_n_of a), <- (u8_n_of b), H. reflexivity. Qed.

Lemma u8_inj a b : a < 256 -> b < 256 -> u8 a = u8 b -> a = b.
Proof. intros Ha Hb H. apply (f_equal n_of) in H. rewrite !n_of_u8 in H. rewrite !N.mod_small in H by assumption. exact H. Qed.

Lemma be_bytes_length w n : length (be_bytes w n) = w.
Proof. revert n; induction w; intros; cbn; [reflexivity|]. rewrite app_length, IHw. cbn. lia. Qed.

Lemma be_value_acc_app acc a b : be_value_acc acc (a ++ b) = be_value_acc (be_value_acc acc a) b.
Proof. revert acc; induction a; intros; cbn; auto. Qed.

Lemma be_value_be_bytes w n : n < 256 ^ N.of_nat w -> be_value (be_bytes w n) = n.
Proof.
  revert n; induction w; intros n H.
  - cbn in *. lia.
  - cbn [be_bytes]. unfold be_value in *. rewrite be_value_acc_app, IHw.
    + cbn. rewrite n_of_u8. lia.
    + rewrite Nnat.Nat2N.inj_succ, N.pow_succ_r' in H. lia.
Qed.

Lemma be_value_acc_spec acc bs :
  be_value_acc acc bs = fold_left (fun acc b => acc * 256 + Byte.to_N b) bs acc.
Proof. revert acc; induction bs; intros; cbn; auto. Qed.

Lemma be_value_spec bs : be_value bs = big_endian bs.
Proof. apply be_value_acc_spec. Qed.

Lemma be_value_acc_split acc bs : be_value_acc acc bs = acc * 256 ^ len bs + be_value bs.
Proof.
  unfold be_value, len. revert acc; induction bs; intros acc; cbn [be_value_acc length].
  - cbn. lia.
  - rewrite IHbs, (IHbs (0 * 256 + n_of a)). rewrite Nnat.Nat2N.inj_succ, N.pow_succ_r'. lia.
Qed.

Lemma be_value_lt bs : be_value bs < 256 ^ len bs.
Proof.
  induction bs; [cbn; lia|].
  unfold be_value. cbn [be_value_acc]. rewrite be_value_acc_split.
  unfold len in *. cbn [length]. rewrite Nnat.Nat2N.inj_succ, N.pow_succ_r'.
  pose proof (n_of_lt a). nia.
Qed.

Lemma be_bytes_be_value bs : be_bytes (length bs) (be_value bs) = bs.
Proof.
  induction bs as [|b bs IH] using rev_ind; [reflexivity|].
  rewrite app_length, Nat.add_1_r. cbn [be_bytes].
  unfold be_value in *. rewrite be_value_acc_app. cbn [be_value_acc].
  pose proof (n_of_lt b).
  replace ((be_value_acc 0 bs * 256 + n_of b) / 256) with (be_value_acc 0 bs) by lia.
  rewrite IH. f_equal. f_equal. apply n_of_inj. rewrite n_of_u8. lia.
Qed.

Lemma be_value_inj a b : length a = length b -> be_value a = be_value b -> a = b.
Proof. intros Hl Hv. rewrite <- (be_bytes_be_value a), <- (be_bytes_be_value b), Hl, Hv. reflexivity. Qed.

Lemma len_app {A} (a b : list A) : len (a ++ b) = len a + len b.
Proof. unfold len. rewrite app_length. lia. Qed.

Lemma len_nil {A} : len (@nil A) = 0. Proof. reflexivity. Qed.
Lemma len_cons {A} (a : A) l : len (a :: l) = 1 + len l.
Proof. unfold len. cbn [length]. lia. Qed.
Lemma len_0 {A} (l : list A) : len l = 0 -> l = [].
Proof. destruct l; [reflexivity|]. rewrite len_cons. lia. Qed.

Lemma firstn_len_app {A} (a b : list A) : firstn (length a) (a ++ b) = a.
Proof. rewrite firstn_app, Nat.sub_diag, firstn_all. cbn. apply app_nil_r. Qed.
Lemma skipn_len_app {A} (a b : list A) : skipn (length a) (a ++ b) = b.
Proof. rewrite skipn_app, Nat.sub_diag, skipn_all. reflexivity. Qed.

(** ** UTF-8 *)
Ltac bn b := let H := fresh "Hb" in pose proof (n_of_lt b) as H.

Lemma utf8_char_valid c p bs : utf8_char c p -> utf8_valid bs = true -> utf8_valid (p ++ bs) = true.
Proof.
  intros H Hv; inversion H; subst; clear H; cbn [app utf8_valid];
  unfold cont, in_range, is_byte_of in *;
  change Byte.to_N with n_of in *; cbn [utf8_valid]; rewrite Hv;
  repeat match goal with H : n_of ?b = _ |- _ => rewrite H; clear H end; unfold scalar in *.
  - destruct (c <? 128) eqn:E; [reflexivity|lia].
  - repeat match goal with |- context [if ?x then _ else _] => destruct x eqn:? end; lia.
  - repeat match goal with |- context [if ?x then _ else _] => destruct x eqn:? end; lia.
  - repeat match goal with |- context [if ?x then _ else _] => destruct x eqn:? end; lia.
Qed.

Lemma utf8_valid_text bs : is_text bs -> utf8_valid bs = true.
Proof.
  intros [cs H]. induction H; [reflexivity|]. eapply utf8_char_valid; eauto.
Qed.

Lemma utf8_valid_split bs : utf8_valid bs = true -> bs <> [] ->
  exists c p r, utf8_char c p /\ bs = p ++ r /\ utf8_valid r = true /\ p <> [].
Proof.
  intros Hv Hn. destruct bs as [|b0 r0]; [congruence|]. cbn [utf8_valid] in Hv.
  unfold cont, in_range in Hv. bn b0.
  destruct (n_of b0 <? 128) eqn:E1.
  { exists (n_of b0), [b0], r0. repeat split; auto; try discriminate.
    apply utf8_1; [lia|reflexivity]. }
  destruct ((194 <=? n_of b0) && (n_of b0 <=? 223)) eqn:E2.
  { destruct r0 as [|b1 r1]; [discriminate|]. bn b1.
    assert (Hr: utf8_valid r1 = true) by (apply andb_true_iff in Hv; tauto).
    exists ((n_of b0 - 192) * 64 + (n_of b1 - 128)), [b0;b1], r1.
    repeat split; auto; try discriminate.
    rewrite Hr in Hv. clear Hr.
    apply utf8_2; unfold is_byte_of; change Byte.to_N with n_of; lia. }
  destruct ((224 <=? n_of b0) && (n_of b0 <=? 239)) eqn:E3.
  { destruct r0 as [|b1 [|b2 r2]]; try discriminate. bn b1; bn b2.
    assert (Hr: utf8_valid r2 = true) by (apply andb_true_iff in Hv; tauto).
    exists ((n_of b0 - 224) * 4096 + (n_of b1 - 128) * 64 + (n_of b2 - 128)), [b0;b1;b2], r2.
    repeat split; auto; try discriminate.
    rewrite Hr in Hv. clear Hr.
    revert Hv; destruct (n_of b0 =? 224) eqn:?; destruct (n_of b0 =? 237) eqn:?; intros Hv;
    apply utf8_3; unfold is_byte_of, scalar; change Byte.to_N with n_of; lia. }
  destruct ((240 <=? n_of b0) && (n_of b0 <=? 244)) eqn:E4; [|discriminate].
  destruct r0 as [|b1 [|b2 [|b3 r3]]]; try discriminate. bn b1; bn b2; bn b3.
  assert (Hr: utf8_valid r3 = true) by (apply andb_true_iff in Hv; tauto).
  exists ((n_of b0 - 240) * 262144 + (n_of b1 - 128) * 4096 + (n_of b2 - 128) * 64 + (n_of b3 - 128)), [b0;b1;b2;b3], r3.
  repeat split; auto; try discriminate.
  rewrite Hr in Hv. clear Hr.
  revert Hv; destruct (n_of b0 =? 240) eqn:?; destruct (n_of b0 =? 244) eqn:?; intros Hv;
  apply utf8_4; unfold is_byte_of, scalar; change Byte.to_N with n_of; lia.
Qed.

Lemma utf8_valid_is_text bs : utf8_valid bs = true -> is_text bs.
Proof.
  remember (length bs) as n eqn:En. revert bs En.
  induction n as [n IH] using lt_wf_ind. intros bs -> Hv.
  destruct bs as [|b bs'] eqn:Eb; [exists []; constructor|]. rewrite <- Eb in *.
  destruct (utf8_valid_split bs Hv) as (c & p & r & Hc & -> & Hr & Hp); [rewrite Eb; discriminate|].
  destruct (IH (length r)) with (bs := r) as [cs Hcs]; auto.
  { rewrite app_length. destruct p; [congruence|]. cbn. lia. }
  exists (c :: cs). constructor; auto.
Qed.

Lemma utf8_valid_iff bs : utf8_valid bs = true <-> is_text bs.
Proof. split; [apply utf8_valid_is_text|apply utf8_valid_text]. Qed.
