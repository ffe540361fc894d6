(** AV1 names and the dispatch over all codecs: proofs. *)
From Coq Require Import NArith List Lia Bool ZArith ZifyBool ZifyN.
From Coq Require Import Strings.String.
From Coq Require Import Init.Byte Strings.Byte.
From Verif.Model Require Import Base Map Text Codec.
From Verif.Spec Require Import CodingSpec CodecSpec.
From Verif.Proofs Require Import BaseP MapP TextP CodecP.
Import ListNotations.
Open Scope nat_scope.
Open Scope list_scope.
Notation length := List.length.

(** ** Characters *)
Lemma chars_ascii l r : Forall (fun b => n_of b < 128)%N l -> chars (l ++ r) = map n_of l ++ chars r.
Proof.
  induction 1 as [|b l H _ IH]; [reflexivity|]. cbn [app map chars]. rewrite (proj2 (N.ltb_lt _ _) H), IH. reflexivity.
Qed.
Lemma chars_all l : Forall (fun b => n_of b < 128)%N l -> chars l = map n_of l.
Proof. intros F. rewrite <- (app_nil_r l) at 1. rewrite (chars_ascii _ _ F). cbn [chars]. apply app_nil_r. Qed.
Lemma chars_utf8 c r : scalar c -> chars (utf8 c ++ r) = c :: chars r.
Proof.
  intros H. unfold scalar in H. unfold utf8.
  destruct (N.ltb_spec c 128); [|destruct (N.ltb_spec c 2048); [|destruct (N.ltb_spec c 65536)]]; cbn [app chars];
    rewrite ?n_of_u8;
    repeat match goal with |- context [if (?x <? ?y)%N then _ else _] => destruct (N.ltb_spec x y); try lia end;
    f_equal; lia.
Qed.
Lemma utf8_ascii b : (n_of b < 128)%N -> utf8 (n_of b) = [b].
Proof. intros H. unfold utf8. rewrite (proj2 (N.ltb_lt _ _) H), u8_n_of. reflexivity. Qed.
Lemma flat_utf8 l : Forall (fun b => n_of b < 128)%N l -> flat_map utf8 (map n_of l) = l.
Proof. induction 1 as [|b l H _ IH]; [reflexivity|]. cbn [map flat_map]. rewrite utf8_ascii, IH by exact H. reflexivity. Qed.

(** ** Numbers *)
Lemma forallb_ascii l : forallb (fun b => n_of b <? 128)%N l = true -> Forall (fun b => n_of b < 128)%N l.
Proof. intros H. apply Forall_forall. intros b I. apply N.ltb_lt. rewrite forallb_forall in H. exact (H b I). Qed.
Lemma show10_ascii b : Forall (fun b => n_of b < 128)%N (show10 b).
Proof. apply forallb_ascii. destruct b; vm_compute; reflexivity. Qed.
Lemma show02_ascii b : Forall (fun b => n_of b < 128)%N (show02 b).
Proof. apply forallb_ascii. destruct b; vm_compute; reflexivity. Qed.
Lemma show10_len b : 1 <= length (show10 b) /\ (length (show10 b) = 1 <-> (n_of b <= 9)%N).
Proof.
  assert (H : Nat.leb 1 (length (show10 b)) && Bool.eqb (Nat.eqb (length (show10 b)) 1) (n_of b <=? 9)%N = true) by (destruct b; vm_compute; reflexivity).
  apply andb_true_iff in H. destruct H as [H1 H2]. apply eqb_prop in H2. split; [apply Nat.leb_le, H1|]. rewrite <- Nat.eqb_eq, H2. apply N.leb_le.
Qed.
Lemma show02_len b : 2 <= length (show02 b) /\ (length (show02 b) = 2 <-> (n_of b <= 99)%N).
Proof.
  assert (H : Nat.leb 2 (length (show02 b)) && Bool.eqb (Nat.eqb (length (show02 b)) 2) (n_of b <=? 99)%N = true) by (destruct b; vm_compute; reflexivity).
  apply andb_true_iff in H. destruct H as [H1 H2]. apply eqb_prop in H2. split; [apply Nat.leb_le, H1|]. rewrite <- Nat.eqb_eq, H2. apply N.leb_le.
Qed.
Fixpoint neqb_list (a b : list N) : bool :=
  match a, b with [], [] => true | x :: a, y :: b => (x =? y)%N && neqb_list a b | _, _ => false end.
Lemma neqb_list_eq a b : neqb_list a b = true -> a = b.
Proof.
  revert b. induction a as [|x a IH]; intros [|y b]; cbn; try discriminate; [reflexivity|]. intros H. apply andb_true_iff in H.
  destruct H as [H1 H2]. apply N.eqb_eq in H1. apply IH in H2. congruence.
Qed.
Lemma show10_1 b : (n_of b <= 9)%N -> map n_of (show10 b) = [48 + n_of b]%N.
Proof.
  intros H. apply neqb_list_eq. apply N.leb_le in H.
  assert (K : implb (n_of b <=? 9)%N (neqb_list (map n_of (show10 b)) [48 + n_of b]%N) = true) by (destruct b; vm_compute; reflexivity).
  rewrite H in K. exact K.
Qed.
Lemma show02_2 b : (n_of b <= 99)%N -> map n_of (show02 b) = [48 + n_of b / 10; 48 + n_of b mod 10]%N.
Proof.
  intros H. apply neqb_list_eq. apply N.leb_le in H.
  assert (K : implb (n_of b <=? 99)%N (neqb_list (map n_of (show02 b)) [48 + n_of b / 10; 48 + n_of b mod 10]%N) = true) by (destruct b; vm_compute; reflexivity).
  rewrite H in K. exact K.
Qed.

(** ** The pattern *)
Lemma matches_iff p s : matches p s = true <-> Forall2 (fun (f : N -> bool) c => f c = true) p s.
Proof.
  revert s. induction p as [|f p IH]; intros [|c s]; cbn [matches]; split; intros H; try discriminate; try constructor; try (inversion H; fail).
  - apply andb_true_iff in H. tauto.
  - apply andb_true_iff in H. apply IH. tauto.
  - inversion_clear H. apply andb_true_iff. split; [assumption|]. apply IH. assumption.
Qed.
Lemma matches_length p s : matches p s = true -> length s = length p.
Proof. intros H. apply matches_iff in H. induction H; cbn; congruence. Qed.
Lemma cls_d_digit u n : (n <= 9)%N -> cls_d u (48 + n) = true.
Proof. intros H. unfold cls_d, between. rewrite (proj2 (N.ltb_lt _ _)) by lia. lia. Qed.
Lemma cls_w_word u c : cls_w u c = true <-> word (uni_word u) c.
Proof. unfold cls_w, word, between. destruct (N.ltb_spec c 128); [lia|]. split; [intros K; right; auto|intros [K|K]; [lia|tauto]]. Qed.

Definition av1_short (p l t d : list N) : list N := map n_of (text "av01.") ++ p ++ [46%N] ++ l ++ t ++ [46%N] ++ d.
Definition av1_long (m x y po c tr ma f : list N) : list N :=
  [46%N] ++ m ++ [46%N] ++ x ++ y ++ po ++ [46%N] ++ c ++ [46%N] ++ tr ++ [46%N] ++ ma ++ [46%N] ++ f.
Definition plainb (a : av1) : bool :=
  negb (a1_mono a) && a1_x a && a1_y a && Byte.eqb (a1_pos a) x00 && Byte.eqb (a1_color a) x01 &&
  Byte.eqb (a1_transfer a) x01 && Byte.eqb (a1_matrix a) x01 && negb (a1_full a).
Lemma plainb_iff a : plainb a = true <-> av1_plain a.
Proof.
  unfold plainb, av1_plain. rewrite !andb_true_iff, !negb_true_iff.
  destruct (byte_eqb_spec (a1_pos a) x00), (byte_eqb_spec (a1_color a) x01), (byte_eqb_spec (a1_transfer a) x01), (byte_eqb_spec (a1_matrix a) x01);
    intuition congruence.
Qed.
Definition m10 (b : byte) := map n_of (show10 b).
Definition m02 (b : byte) := map n_of (show02 b).
Lemma chars_show a : av1_value a -> chars (show_av1 a) =
  av1_short (m10 (a1_profile a)) (m02 (a1_level a)) [a1_tier a] (m02 (a1_depth a)) ++
  (if plainb a then [] else
   av1_long (m10 (flag (a1_mono a))) (m10 (flag (a1_x a))) (m10 (flag (a1_y a))) (m10 (a1_pos a))
            (m02 (a1_color a)) (m02 (a1_transfer a)) (m02 (a1_matrix a)) (m10 (flag (a1_full a)))).
Proof.
  intros T. unfold show_av1. fold (plainb a). unfold av1_short, av1_long, m10, m02.
  assert (D : Forall (fun b => n_of b < 128)%N [dot]) by (constructor; [reflexivity|constructor]).
  rewrite chars_ascii by (apply forallb_ascii; reflexivity). rewrite <- !app_assoc. f_equal.
  rewrite (chars_ascii _ _ (show10_ascii _)). f_equal. rewrite (chars_ascii _ _ D). f_equal.
  rewrite (chars_ascii _ _ (show02_ascii _)). f_equal. rewrite chars_utf8 by exact T. cbn [app]. f_equal.
  match goal with |- chars ?R = _ => assert (F : Forall (fun b => n_of b < 128)%N R) end.
  { constructor; [reflexivity|]. apply Forall_app. split; [apply show02_ascii|]. destruct (plainb a); [constructor|].
    repeat (first [apply show10_ascii | apply show02_ascii | constructor; [reflexivity|] | apply Forall_app; split]). }
  rewrite (chars_all _ F). destruct (plainb a); cbn [map app]; rewrite ?map_app; cbn [map app]; rewrite ?map_app; cbn [map app];
    repeat (rewrite ?map_app; cbn [map app]); reflexivity.
Qed.

(** A number made of one or two digits of the text *)
Lemma group_show b : flat_map utf8 (map n_of (show10 b)) = show10 b /\ flat_map utf8 (map n_of (show02 b)) = show02 b.
Proof. split; apply flat_utf8; [apply show10_ascii|apply show02_ascii]. Qed.
Lemma one_digit b : (n_of b <= 9)%N -> parse_u8 10 (flat_map utf8 [48 + n_of b]%N) = Parsed b.
Proof. intros H. rewrite <- show10_1 by exact H. rewrite (proj1 (group_show b)). apply parse_u8_iff; [lia|apply show10_u8]. Qed.
Lemma two_digits b : (n_of b <= 99)%N -> parse_u8 10 (flat_map utf8 [48 + n_of b / 10; 48 + n_of b mod 10]%N) = Parsed b.
Proof. intros H. rewrite <- show02_2 by exact H. rewrite (proj2 (group_show b)). apply parse_u8_iff; [lia|apply show02_u8]. Qed.
Lemma flag_chars (f : bool) : m10 (flag f) = [if f then 49 else 48]%N.
Proof. destruct f; vm_compute; reflexivity. Qed.
Lemma flag_group (f : bool) : str_eqb (flat_map utf8 [if f then 49 else 48]%N) (text "1") = f.
Proof. destruct f; vm_compute; reflexivity. Qed.

Lemma av1_exact u a : av1_value a -> parse_av1 u (show_av1 a) = Parsed a <-> av1_good (uni_word u) a.
Proof.
  intros T. unfold parse_av1. rewrite (chars_show a T). unfold av1_good. change Byte.to_N with n_of.
  rewrite <- plainb_iff. rewrite !flag_chars.
  destruct (show10_len (a1_profile a)) as [Lp Ip]. destruct (show02_len (a1_level a)) as [Ll Il]. destruct (show02_len (a1_depth a)) as [Ld Id].
  destruct (plainb a) eqn:PL.
  - rewrite app_nil_r. unfold av1_short.
    set (cs := _ ++ _). assert (LC : length cs = 8 + length (show10 (a1_profile a)) + length (show02 (a1_level a)) + length (show02 (a1_depth a))).
    { unfold cs, m10, m02. rewrite !app_length, !map_length. cbn. lia. }
    assert (NL : length cs <> 30 -> matches (rx_base u ++ rx_extra u) cs = false).
    { intros N. destruct (matches (rx_base u ++ rx_extra u) cs) eqn:M; [|reflexivity]. apply matches_length in M. change (length (rx_base u ++ rx_extra u)) with 30 in M. congruence. }
    assert (N30 : length cs <> 30).
    { assert (length (show10 (a1_profile a)) <= 3 /\ length (show02 (a1_level a)) <= 3 /\ length (show02 (a1_depth a)) <= 3).
      { assert (U : forall b, Nat.leb (length (show10 b)) 3 && Nat.leb (length (show02 b)) 3 = true) by (intros b; destruct b; vm_compute; reflexivity).
        assert (U1 := U (a1_profile a)). assert (U2 := U (a1_level a)). assert (U3 := U (a1_depth a)). lia. }
      lia. }
    rewrite (NL N30), orb_false_r. clear NL. split.
    + destruct (matches (rx_base u) cs) eqn:M; [|discriminate]. intros _. assert (M' := matches_length _ _ M). change (length (rx_base u)) with 13 in M'.
      assert (Hp : (n_of (a1_profile a) <= 9)%N) by (apply Ip; lia). assert (Hl : (n_of (a1_level a) <= 99)%N) by (apply Il; lia).
      assert (Hd : (n_of (a1_depth a) <= 99)%N) by (apply Id; lia).
      unfold cs, m10, m02 in M. rewrite (show10_1 _ Hp), (show02_2 _ Hl), (show02_2 _ Hd) in M.
      change (map n_of (text "av01.")) with [97; 118; 48; 49; 46]%N in M. unfold rx_base in M. change (text "av01.") with [x61; x76; x30; x31; x2e] in M.
      cbn [matches app map] in M. rewrite !andb_true_iff in M.
      assert (W : cls_w u (a1_tier a) = true) by tauto. assert (P1 : between 48 49 (48 + n_of (a1_profile a)) = true) by tauto.
      unfold between in P1. apply cls_w_word in W. split; [lia|]. tauto.
    + intros (Hp & Hl & Hd & W & _). assert (Hp' : (n_of (a1_profile a) <= 9)%N) by lia.
      assert (CS : cs = map n_of (text "av01.") ++ [48 + n_of (a1_profile a); 46; 48 + n_of (a1_level a) / 10; 48 + n_of (a1_level a) mod 10; a1_tier a; 46; 48 + n_of (a1_depth a) / 10; 48 + n_of (a1_depth a) mod 10]%N).
      { unfold cs, m10, m02. rewrite (show10_1 _ Hp'), (show02_2 _ Hl), (show02_2 _ Hd). reflexivity. }
      assert (M : matches (rx_base u) cs = true).
      { rewrite CS. apply matches_iff. unfold rx_base. change (map n_of (text "av01.")) with [97; 118; 48; 49; 46]%N. change (text "av01.") with [x61; x76; x30; x31; x2e]. cbn [map app].
        repeat (constructor; [first [reflexivity | apply cls_d_digit; lia | apply cls_w_word, W | unfold between; lia]|]). constructor. }
      rewrite M. cbn [negb]. rewrite CS. unfold group. change (map n_of (text "av01.")) with [97; 118; 48; 49; 46]%N. cbn [app skipn firstn nth].
      rewrite one_digit by exact Hp'. cbn [pbind]. rewrite two_digits by exact Hl. cbn [pbind]. rewrite two_digits by exact Hd. cbn [pbind].
      apply plainb_iff in PL. destruct a; unfold av1_plain in PL; cbn in *. intuition congruence.
  - destruct (show10_len (a1_pos a)) as [Lo Io]. destruct (show02_len (a1_color a)) as [Lc Ic]. destruct (show02_len (a1_transfer a)) as [Lt It].
    destruct (show02_len (a1_matrix a)) as [Lm Im].
    unfold av1_short, av1_long.
    set (cs := _ ++ _). assert (LC : length cs = 18 + length (show10 (a1_profile a)) + length (show02 (a1_level a)) + length (show02 (a1_depth a)) + length (show10 (a1_pos a)) + length (show02 (a1_color a)) + length (show02 (a1_transfer a)) + length (show02 (a1_matrix a))).
    { unfold cs, m10, m02. rewrite !app_length, !map_length. cbn. lia. }
    assert (NS : matches (rx_base u) cs = false).
    { destruct (matches (rx_base u) cs) eqn:M; [|reflexivity]. apply matches_length in M. change (length (rx_base u)) with 13 in M. lia. }
    rewrite NS, orb_false_l. clear NS. split.
    + destruct (matches (rx_base u ++ rx_extra u) cs) eqn:M; [|discriminate]. intros _. assert (M' := matches_length _ _ M).
      change (length (rx_base u ++ rx_extra u)) with 30 in M'.
      assert (Hp : (n_of (a1_profile a) <= 9)%N) by (apply Ip; lia). assert (Hl : (n_of (a1_level a) <= 99)%N) by (apply Il; lia).
      assert (Hd : (n_of (a1_depth a) <= 99)%N) by (apply Id; lia). assert (Ho : (n_of (a1_pos a) <= 9)%N) by (apply Io; lia).
      assert (Hc : (n_of (a1_color a) <= 99)%N) by (apply Ic; lia). assert (Ht : (n_of (a1_transfer a) <= 99)%N) by (apply It; lia).
      assert (Hm : (n_of (a1_matrix a) <= 99)%N) by (apply Im; lia).
      unfold cs, m10, m02 in M.
      rewrite (show10_1 _ Hp), (show02_2 _ Hl), (show02_2 _ Hd), (show10_1 _ Ho), (show02_2 _ Hc), (show02_2 _ Ht), (show02_2 _ Hm) in M.
      change (map n_of (text "av01.")) with [97; 118; 48; 49; 46]%N in M. unfold rx_base, rx_extra in M. change (text "av01.") with [x61; x76; x30; x31; x2e] in M.
      cbn [matches app map] in M. rewrite !andb_true_iff in M.
      assert (W : cls_w u (a1_tier a) = true) by tauto. assert (P1 : between 48 49 (48 + n_of (a1_profile a)) = true) by tauto.
      assert (P3 : between 48 51 (48 + n_of (a1_pos a)) = true) by tauto.
      unfold between in P1, P3. apply cls_w_word in W. split; [lia|]. split; [exact Hl|]. split; [exact Hd|]. split; [exact W|]. right. lia.
    + intros (Hp & Hl & Hd & W & [K|(Ho & Hc & Ht & Hm)]); [discriminate|].
      assert (Hp' : (n_of (a1_profile a) <= 9)%N) by lia. assert (Ho' : (n_of (a1_pos a) <= 9)%N) by lia.
      assert (CS : cs = map n_of (text "av01.") ++ [48 + n_of (a1_profile a); 46; 48 + n_of (a1_level a) / 10; 48 + n_of (a1_level a) mod 10; a1_tier a; 46; 48 + n_of (a1_depth a) / 10; 48 + n_of (a1_depth a) mod 10;
         46; if a1_mono a then 49 else 48; 46; if a1_x a then 49 else 48; if a1_y a then 49 else 48; 48 + n_of (a1_pos a); 46; 48 + n_of (a1_color a) / 10; 48 + n_of (a1_color a) mod 10; 46; 48 + n_of (a1_transfer a) / 10; 48 + n_of (a1_transfer a) mod 10; 46; 48 + n_of (a1_matrix a) / 10; 48 + n_of (a1_matrix a) mod 10; 46; if a1_full a then 49 else 48]%N).
      { unfold cs, m10, m02. rewrite (show10_1 _ Hp'), (show02_2 _ Hl), (show02_2 _ Hd), (show10_1 _ Ho'), (show02_2 _ Hc), (show02_2 _ Ht), (show02_2 _ Hm). reflexivity. }
      assert (M : matches (rx_base u ++ rx_extra u) cs = true).
      { rewrite CS. apply matches_iff. unfold rx_base, rx_extra. change (map n_of (text "av01.")) with [97; 118; 48; 49; 46]%N.
        change (text "av01.") with [x61; x76; x30; x31; x2e]. cbn [map app].
        repeat (constructor; [first [reflexivity | apply cls_d_digit; lia | apply cls_w_word, W | unfold between; lia
          | destruct (a1_mono a); reflexivity | destruct (a1_x a); reflexivity | destruct (a1_y a); reflexivity | destruct (a1_full a); reflexivity ]|]). constructor. }
      rewrite M. cbn [negb]. rewrite CS. unfold group. change (map n_of (text "av01.")) with [97; 118; 48; 49; 46]%N. cbn [app skipn firstn nth].
      rewrite one_digit by exact Hp'. cbn [pbind]. rewrite two_digits by exact Hl. cbn [pbind]. rewrite two_digits by exact Hd. cbn [pbind].
      rewrite one_digit by exact Ho'. cbn [pbind]. rewrite two_digits by exact Hc. cbn [pbind]. rewrite two_digits by exact Ht. cbn [pbind].
      rewrite two_digits by exact Hm. cbn [pbind]. rewrite !flag_group. destruct a; reflexivity.
Qed.

Lemma av1_not_panics u s : parse_av1 u s <> Panics.
Proof.
  unfold parse_av1. destruct (negb _); [discriminate|].
  repeat match goal with |- pbind (parse_u8 ?r ?t) _ <> _ => destruct (parse_u8_cases r t) as [[? E]|E]; rewrite E; cbn [pbind]; clear E; [|discriminate] end.
  destruct (negb _); [discriminate|].
  repeat match goal with |- pbind (parse_u8 ?r ?t) _ <> _ => destruct (parse_u8_cases r t) as [[? E]|E]; rewrite E; cbn [pbind]; clear E; [|discriminate] end.
  discriminate.
Qed.

(** Whatever was read has a form that prints. *)
Lemma matches_nth p s i f d : matches p s = true -> nth_error p i = Some f -> f (nth i s d) = true.
Proof.
  intros H. apply matches_iff in H. revert i. induction H as [|g c p s G _ IH]; intros [|i] E; try discriminate; cbn in *; [congruence|apply IH, E].
Qed.
Lemma parse_one c n : parse_u8 10 (flat_map utf8 [c]) = Parsed n -> (c < 128)%N -> c = (48 + n_of n)%N.
Proof.
  intros H L. cbn [flat_map] in H. rewrite app_nil_r in H. unfold utf8 in H. rewrite (proj2 (N.ltb_lt _ _) L) in H.
  unfold parse_u8 in H. destruct (parse_uint 10 255 [u8 c]) as [v|] eqn:E; [|discriminate]. injection H as <-.
  unfold parse_uint in E. cbn [strip_sign digits] in E. destruct (digit 10 (u8 c)) as [d|] eqn:D; [|discriminate].
  apply digit10 in D. destruct D as [Hd D]. apply (f_equal n_of) in D. rewrite !n_of_small in D by lia.
  destruct (N.leb_spec (0 * 10 + d) 255); [|discriminate]. injection E as <-. rewrite n_of_small by lia. lia.
Qed.

Lemma utf8_char_is c p : utf8_char c p -> p = utf8 c /\ scalar c.
Proof.
  intros H. inversion H; subst; unfold is_byte_of, scalar in *; change Byte.to_N with n_of in *; (split; [|lia]); unfold utf8;
  repeat match goal with |- context [if (?x <? ?y)%N then _ else _] => destruct (N.ltb_spec x y); try lia end;
  repeat f_equal; apply n_of_inj; rewrite n_of_small by lia; lia.
Qed.
Lemma text_chars cs s : utf8_text cs s -> chars s = cs /\ Forall scalar cs.
Proof.
  induction 1 as [|c cs p bs C _ [IH F]]; [split; [reflexivity|constructor]|].
  destruct (utf8_char_is _ _ C) as [-> K]. split; [rewrite chars_utf8 by exact K; congruence|constructor; assumption].
Qed.
Lemma utf8_wide c : scalar c -> Forall (fun b => n_of b < 128)%N (utf8 c) -> utf8 c = [u8 c] /\ (c < 128)%N.
Proof.
  intros K F. unfold scalar in K. revert F. unfold utf8.
  destruct (N.ltb_spec c 128); [intros _; split; [reflexivity|assumption]|destruct (N.ltb_spec c 2048); [|destruct (N.ltb_spec c 65536)]];
    intros F; exfalso; apply Forall_inv in F; rewrite n_of_u8 in F; lia.
Qed.
Lemma numeral_bound v t : numeral 10 v t -> (v < 10 ^ N.of_nat (length t))%N.
Proof.
  induction 1 as [|v ds d b _ IH D]; [reflexivity|]. rewrite app_length. cbn [length]. rewrite Nat.add_1_r, Nat2N.inj_succ, N.pow_succ_r'.
  destruct D. lia.
Qed.
Lemma parse_short l b : Forall scalar l -> length l <= 2 -> parse_u8 10 (flat_map utf8 l) = Parsed b -> (n_of b <= 99)%N.
Proof.
  intros F L H. apply parse_u8_iff in H; [|lia]. assert (A := number_ascii 10 255 _ _ ltac:(lia) H).
  assert (K : length (flat_map utf8 l) = length l).
  { clear H L. induction F as [|c l K _ IH]; [reflexivity|]. cbn [flat_map] in *. apply Forall_app in A. destruct A as [A1 A2].
    destruct (utf8_wide c K A1) as [-> _]. cbn. rewrite IH by exact A2. reflexivity. }
  destruct H as [_ (ds & _ & N & E)]. apply numeral_bound in N. change Byte.to_N with n_of in N.
  assert (length ds <= 2). { destruct E as [E|E]; apply (f_equal (@List.length _)) in E; cbn in E; lia. }
  destruct ds as [|? [|? [|]]]; cbn in *; lia.
Qed.
Lemma Forall_firstn_skipn {A} (P : A -> Prop) l i n : Forall P l -> Forall P (firstn n (skipn i l)).
Proof.
  intros F. rewrite <- (firstn_skipn i l) in F. apply Forall_app in F. destruct F as [_ F].
  rewrite <- (firstn_skipn n (skipn i l)) in F. apply Forall_app in F. tauto.
Qed.
Lemma group_one cs i d : i < length cs -> group cs i 1 = flat_map utf8 [nth i cs d].
Proof.
  intros L. unfold group. f_equal. revert i L. induction cs as [|c cs IH]; intros [|i] L; cbn in L; try lia; [reflexivity|]. cbn. apply IH. lia.
Qed.

Lemma av1_read u s a : is_text s -> parse_av1 u s = Parsed a -> av1_value a /\ av1_good (uni_word u) a.
Proof.
  intros [cs T]. destruct (text_chars cs s T) as [E F]. unfold parse_av1. rewrite E. clear E T s.
  destruct (matches (rx_base u) cs) eqn:M1; destruct (matches (rx_base u ++ rx_extra u) cs) eqn:M2; cbn [negb orb].
  { exfalso. apply matches_length in M1, M2. cbn in M1, M2. lia. }
  3:discriminate.
  - destruct (parse_u8 10 (group cs 5 1)) as [pr| | |] eqn:P1; try discriminate. cbn [pbind].
    destruct (parse_u8 10 (group cs 7 2)) as [lv| | |] eqn:P2; try discriminate. cbn [pbind].
    destruct (parse_u8 10 (group cs 11 2)) as [de| | |] eqn:P3; try discriminate. cbn [pbind].
    intros H. injection H as <-. assert (L := matches_length _ _ M1). change (length (rx_base u)) with 13 in L.
    assert (B := matches_nth _ _ 5 _ 0%N M1 eq_refl). assert (W := matches_nth _ _ 9 _ 0%N M1 eq_refl). cbv beta in B, W.
    rewrite (group_one cs 5 0%N) in P1 by lia. unfold between in B. apply parse_one in P1; [|lia].
    apply parse_short in P2; [|apply Forall_firstn_skipn, F|rewrite firstn_length; lia].
    apply parse_short in P3; [|apply Forall_firstn_skipn, F|rewrite firstn_length; lia].
    split; [unfold av1_value; cbn [a1_tier]; rewrite Forall_forall in F; apply F, nth_In; lia|].
    unfold av1_good. cbn [a1_profile a1_level a1_depth a1_tier]. change Byte.to_N with n_of. split; [lia|]. split; [exact P2|]. split; [exact P3|].
    split; [apply cls_w_word, W|]. left. repeat split.
  - destruct (parse_u8 10 (group cs 5 1)) as [pr| | |] eqn:P1; try discriminate. cbn [pbind].
    destruct (parse_u8 10 (group cs 7 2)) as [lv| | |] eqn:P2; try discriminate. cbn [pbind].
    destruct (parse_u8 10 (group cs 11 2)) as [de| | |] eqn:P3; try discriminate. cbn [pbind].
    destruct (parse_u8 10 (group cs 18 1)) as [po| | |] eqn:P4; try discriminate. cbn [pbind].
    destruct (parse_u8 10 (group cs 20 2)) as [co| | |] eqn:P5; try discriminate. cbn [pbind].
    destruct (parse_u8 10 (group cs 23 2)) as [tr| | |] eqn:P6; try discriminate. cbn [pbind].
    destruct (parse_u8 10 (group cs 26 2)) as [ma| | |] eqn:P7; try discriminate. cbn [pbind].
    intros H. injection H as <-. assert (L := matches_length _ _ M2). change (length (rx_base u ++ rx_extra u)) with 30 in L.
    assert (B := matches_nth _ _ 5 _ 0%N M2 eq_refl). assert (W := matches_nth _ _ 9 _ 0%N M2 eq_refl).
    assert (Q := matches_nth _ _ 18 _ 0%N M2 eq_refl). cbv beta in B, W, Q.
    rewrite (group_one cs 5 0%N) in P1 by lia. unfold between in B, Q. apply parse_one in P1; [|lia].
    rewrite (group_one cs 18 0%N) in P4 by lia. apply parse_one in P4; [|lia].
    apply parse_short in P2; [|apply Forall_firstn_skipn, F|rewrite firstn_length; lia].
    apply parse_short in P3; [|apply Forall_firstn_skipn, F|rewrite firstn_length; lia].
    apply parse_short in P5; [|apply Forall_firstn_skipn, F|rewrite firstn_length; lia].
    apply parse_short in P6; [|apply Forall_firstn_skipn, F|rewrite firstn_length; lia].
    apply parse_short in P7; [|apply Forall_firstn_skipn, F|rewrite firstn_length; lia].
    split; [unfold av1_value; cbn [a1_tier]; rewrite Forall_forall in F; apply F, nth_In; lia|].
    unfold av1_good. cbn [a1_profile a1_level a1_depth a1_tier a1_pos a1_color a1_transfer a1_matrix]. change Byte.to_N with n_of.
    split; [lia|]. split; [exact P2|]. split; [exact P3|].
    split; [apply cls_w_word, W|]. right. lia.
Qed.

(** ** Dispatch *)
Lemma pmap_parsed {A B} (f : A -> B) x b : pmap f x = Parsed b <-> exists a, x = Parsed a /\ f a = b.
Proof.
  unfold pmap. destruct x; cbn; split; try discriminate; try (intros (? & H & _); discriminate).
  - intros H. injection H as <-. eauto.
  - intros (a' & H & <-). injection H as <-. reflexivity.
Qed.
Lemma pmap_panics {A B} (f : A -> B) x : pmap f x = Panics <-> x = Panics.
Proof. unfold pmap. destruct x; cbn; split; congruence. Qed.

Lemma sw p s : starts_with (text p) s = true <-> begins p s.
Proof. apply starts_with_iff. Qed.

Lemma parse_video_unknown u s : parse_video u s = Parsed (VUnknown s) <-> ~ known_video s.
Proof.
  unfold parse_video, known_video.
  assert (S1 := sw "avc1." s). assert (S2 := sw "hvc1." s). assert (S3 := sw "hev1." s). assert (S4 := sw "vp09." s). assert (S5 := sw "av01." s).
  assert (S6 := str_eqb_eq s (text "vp8")). change (text "vp8") with (ascii "vp8") in *.
  destruct (starts_with (text "avc1.") s); [split; [rewrite pmap_parsed; intros (? & _ & ?); discriminate|tauto]|].
  destruct (starts_with (text "hvc1.") s); [split; [cbn [orb]; rewrite pmap_parsed; intros (? & _ & ?); discriminate|tauto]|].
  destruct (starts_with (text "hev1.") s); [split; [cbn [orb]; rewrite pmap_parsed; intros (? & _ & ?); discriminate|tauto]|]. cbn [orb].
  destruct (str_eqb s (ascii "vp8")); [split; [discriminate|tauto]|].
  destruct (starts_with (text "vp09.") s); [split; [rewrite pmap_parsed; intros (? & _ & ?); discriminate|tauto]|].
  destruct (starts_with (text "av01.") s); [split; [rewrite pmap_parsed; intros (? & _ & ?); discriminate|tauto]|].
  split; [intros _|reflexivity].
  assert (X : forall P, false = true <-> P -> ~ P) by (intros P [_ H] K; specialize (H K); discriminate).
  apply X in S1, S2, S3, S4, S5, S6. tauto.
Qed.
Lemma unknown_same u s t : parse_video u s = Parsed (VUnknown t) -> t = s.
Proof.
  unfold parse_video. destruct (starts_with (text "avc1.") s); [rewrite pmap_parsed; intros (? & _ & ?); discriminate|].
  destruct (starts_with (text "hvc1.") s || starts_with (text "hev1.") s); [rewrite pmap_parsed; intros (? & _ & ?); discriminate|].
  destruct (str_eqb s (text "vp8")); [discriminate|].
  destruct (starts_with (text "vp09.") s); [rewrite pmap_parsed; intros (? & _ & ?); discriminate|].
  destruct (starts_with (text "av01.") s); [rewrite pmap_parsed; intros (? & _ & ?); discriminate|]. congruence.
Qed.

Lemma dispatch_264 u r : parse_video u (text "avc1." ++ r) = pmap H264 (parse_h264 (text "avc1." ++ r)).
Proof. reflexivity. Qed.
Lemma dispatch_265 u (b : bool) r : parse_video u ((if b then text "hev1" else text "hvc1") ++ [dot] ++ r) =
  pmap H265 (parse_h265 ((if b then text "hev1" else text "hvc1") ++ [dot] ++ r)).
Proof. destruct b; reflexivity. Qed.
Lemma dispatch_vp9 u r : parse_video u (text "vp09." ++ r) = pmap VP9 (parse_vp9 (text "vp09." ++ r)).
Proof. reflexivity. Qed.
Lemma dispatch_av1 u r : parse_video u (text "av01." ++ r) = pmap AV1 (parse_av1 u (text "av01." ++ r)).
Proof. reflexivity. Qed.

Lemma pmap_inj {A B} (f : A -> B) x a : (forall a b, f a = f b -> a = b) -> pmap f x = Parsed (f a) <-> x = Parsed a.
Proof. intros I. rewrite pmap_parsed. split; [intros (b & -> & E); apply I in E; congruence|intros ->; eauto]. Qed.

Lemma video_exact u v : video_value v -> parse_video u (show_video v) = Parsed v <-> video_good (uni_word u) v.
Proof.
  intros V. destruct v as [h|h|v|a| |s]; cbn [show_video video_good video_value] in *.
  - unfold show_h264. rewrite dispatch_264. fold (show_h264 h). rewrite pmap_inj by congruence. split; [auto|intros _; apply h264_roundtrip].
  - unfold show_h265. cbv zeta. rewrite dispatch_265. change (pmap H265 (parse_h265 (show_h265 h)) = Parsed (H265 h) <-> h265_good h).
    rewrite pmap_inj by congruence. apply h265_exact, V.
  - unfold show_vp9. rewrite dispatch_vp9. change (pmap VP9 (parse_vp9 (show_vp9 v)) = Parsed (VP9 v) <-> True).
    rewrite pmap_inj by congruence. split; [auto|intros _; apply vp9_roundtrip].
  - unfold show_av1. rewrite dispatch_av1. change (pmap AV1 (parse_av1 u (show_av1 a)) = Parsed (AV1 a) <-> av1_good (uni_word u) a).
    rewrite pmap_inj by congruence. apply av1_exact, V.
  - split; [auto|reflexivity].
  - apply parse_video_unknown.
Qed.

Lemma video_panics u s : is_text s -> parse_video u s = Panics <-> h264_cut s.
Proof.
  intros T. unfold parse_video. assert (S1 := sw "avc1." s).
  destruct (starts_with (text "avc1.") s); [rewrite pmap_panics; apply parse_h264_panics|].
  split.
  - destruct (_ || _); [rewrite pmap_panics; intros H; destruct (h265_not_panics s T H)|].
    destruct (str_eqb s _); [discriminate|].
    destruct (starts_with (text "vp09.") s); [rewrite pmap_panics; intros H; destruct (vp9_not_panics s H)|].
    destruct (starts_with (text "av01.") s); [rewrite pmap_panics; intros H; destruct (av1_not_panics u s H)|]. discriminate.
  - intros (p & rest & -> & _). destruct S1 as [_ S1]. assert (K : false = true) by (apply S1; exists (p ++ rest); reflexivity). discriminate.
Qed.

Lemma video_reprint u s v : is_text s -> parse_video u s = Parsed v -> (forall h, v <> H265 h) ->
  parse_video u (show_video v) = Parsed v.
Proof.
  intros T H N. assert (V : video_value v /\ video_good (uni_word u) v); [|apply video_exact; tauto].
  destruct v as [h|h|v|a| |t]; cbn [video_value video_good]; auto.
  - destruct (N h eq_refl).
  - unfold parse_video in H.
    destruct (starts_with (text "avc1.") s); [apply pmap_parsed in H; destruct H as (? & _ & ?); discriminate|].
    destruct (_ || _); [apply pmap_parsed in H; destruct H as (? & _ & ?); discriminate|].
    destruct (str_eqb s _); [discriminate|].
    destruct (starts_with (text "vp09.") s); [apply pmap_parsed in H; destruct H as (? & _ & ?); discriminate|].
    destruct (starts_with (text "av01.") s); [|discriminate]. apply pmap_inj in H; [|congruence]. apply (av1_read u s a T H).
  - assert (E := unknown_same u s t H). subst t. split; [exact I|]. apply (parse_video_unknown u), H.
Qed.

(** Audio *)
Lemma audio_unknown s : parse_audio s = Parsed (AUnknown s) <-> ~ known_audio s.
Proof.
  unfold parse_audio, known_audio. assert (S1 := sw "mp4a.40." s). assert (S2 := str_eqb_eq s (text "opus")). change (text "opus") with (ascii "opus") in *.
  destruct (starts_with (text "mp4a.40.") s); [split; [rewrite pmap_parsed; intros (? & _ & ?); discriminate|tauto]|].
  destruct (str_eqb s (ascii "opus")); [split; [discriminate|tauto]|]. split; [intros _|reflexivity]. intros [K|K]; [apply S1 in K|apply S2 in K]; discriminate.
Qed.
Lemma audio_unknown_same s t : parse_audio s = Parsed (AUnknown t) -> t = s.
Proof.
  unfold parse_audio. destruct (starts_with (text "mp4a.40.") s); [rewrite pmap_parsed; intros (? & _ & ?); discriminate|].
  destruct (str_eqb s _); [discriminate|]. congruence.
Qed.
Lemma audio_exact a : parse_audio (show_audio a) = Parsed a <-> audio_good a.
Proof.
  destruct a as [p| |s]; cbn [show_audio audio_good].
  - split; [auto|intros _]. change (pmap AAC (parse_aac (text "mp4a.40." ++ show10 p)) = Parsed (AAC p)). apply pmap_inj; [congruence|].
    apply parse_aac_iff. exists (show10 p). split; [reflexivity|apply show10_u8].
  - split; [auto|reflexivity].
  - apply audio_unknown.
Qed.
Lemma audio_reprint s a : parse_audio s = Parsed a -> parse_audio (show_audio a) = Parsed a.
Proof.
  intros H. apply audio_exact. destruct a as [p| |t]; cbn [audio_good]; auto. assert (E := audio_unknown_same s t H). subst t. apply audio_unknown, H.
Qed.
Lemma audio_not_panics s : parse_audio s <> Panics.
Proof.
  unfold parse_audio. destruct (starts_with (text "mp4a.40.") s); [|destruct (str_eqb s _); discriminate].
  rewrite pmap_panics. unfold parse_aac. destruct (strip_prefix _ s) as [r|]; [|discriminate]. destruct (parse_u8_cases 10 r) as [[b ->]| ->]; discriminate.
Qed.

(** ** Reading H.265 gives arrays of the right size *)
Lemma update_length i b l : length (update i b l) = length l.
Proof. revert i. induction l as [|x l IH]; intros [|i]; cbn; try rewrite IH; reflexivity. Qed.
Lemma loop_length i ps fl r : constraints_loop i ps fl = Parsed r -> length r = length fl.
Proof.
  revert i fl. induction ps as [|p ps IH]; intros i fl; cbn [constraints_loop]; [congruence|]. destruct (Nat.leb 6 i); [discriminate|].
  destruct (parse_u8 16 p) as [b| | |]; cbn [pbind]; try discriminate. intros H. apply IH in H. rewrite update_length in H. exact H.
Qed.
Lemma h265_read s h : parse_h265 s = Parsed h -> h265_value h.
Proof.
  unfold parse_h265. destruct (split dot s) as [|p0 ps]; [discriminate|].
  match goal with |- context [if ?x then _ else _] => destruct x end; [discriminate|].
  destruct ps as [|profile ps]; [discriminate|]. destruct profile as [|b t]; [discriminate|]. cbv zeta.
  match goal with |- pbind ?x _ = _ -> _ => destruct x as [ds| | |] end; cbn [pbind]; try discriminate.
  destruct (parse_u8 10 ds) as [idc| | |]; cbn [pbind]; try discriminate.
  destruct ps as [|compat ps]; [discriminate|]. destruct (parse_uint 16 (2 ^ 32 - 1) compat) as [v|]; [|discriminate].
  destruct ps as [|level ps]; [discriminate|]. destruct level as [|tt lt]; [discriminate|].
  destruct (Byte.eqb tt x48 || Byte.eqb tt x4c); [|discriminate].
  destruct (slice (tt :: lt) 1 _) as [ds'| | |]; cbn [pbind]; try discriminate.
  destruct (parse_u8 10 ds') as [lvl| | |]; cbn [pbind]; try discriminate.
  destruct (constraints_loop 0 ps (repeat x00 6)) as [fl| | |] eqn:E; cbn [pbind]; try discriminate.
  intros H. injection H as <-. split; [reflexivity|]. apply loop_length in E. exact E.
Qed.
Lemma video_read u s v : is_text s -> parse_video u s = Parsed v -> video_value v.
Proof.
  intros T H. destruct v as [h|h|v|a| |t]; cbn [video_value]; auto.
  - unfold parse_video in H. destruct (starts_with (text "avc1.") s); [apply pmap_parsed in H; destruct H as (? & _ & ?); discriminate|].
    destruct (_ || _); [apply pmap_inj in H; [|congruence]; apply (h265_read s h H)|].
    destruct (str_eqb s _); [discriminate|].
    destruct (starts_with (text "vp09.") s); [apply pmap_parsed in H; destruct H as (? & _ & ?); discriminate|].
    destruct (starts_with (text "av01.") s); [apply pmap_parsed in H; destruct H as (? & _ & ?); discriminate|]. discriminate.
  - unfold parse_video in H. destruct (starts_with (text "avc1.") s); [apply pmap_parsed in H; destruct H as (? & _ & ?); discriminate|].
    destruct (_ || _); [apply pmap_parsed in H; destruct H as (? & _ & ?); discriminate|].
    destruct (str_eqb s _); [discriminate|].
    destruct (starts_with (text "vp09.") s); [apply pmap_parsed in H; destruct H as (? & _ & ?); discriminate|].
    destruct (starts_with (text "av01.") s); [|discriminate]. apply pmap_inj in H; [|congruence]. apply (av1_read u s a T H).
Qed.
Lemma video_reprint_exact u s v : is_text s -> parse_video u s = Parsed v ->
  parse_video u (show_video v) = Parsed v <-> (forall h, v = H265 h -> h265_good h).
Proof.
  intros T H. split.
  - intros K h ->. apply (video_exact u (H265 h)); [apply (video_read u s _ T H)|exact K].
  - intros G. destruct v as [h|h|v|a| |t]; try (apply (video_reprint u s _ T H); discriminate).
    apply (video_exact u (H265 h)); [apply (video_read u s _ T H)|]. cbn. apply G. reflexivity.
Qed.
