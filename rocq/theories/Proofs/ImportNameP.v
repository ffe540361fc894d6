(** Proofs for C125: names of codecs against the standards. *)
From Coq Require Import NArith Arith List Bool Lia.
From Coq Require Import Strings.String.
From Coq Require Import Init.Byte Strings.Byte.
From Verif.Model Require Import Base Text Codec Catalog CatalogJson Import ImportCodec.
From Verif.Spec Require Import CodingSpec CodecSpec ImportCodecSpec.
From Verif.Proofs Require Import BaseP TextP CodecP CodecAv1P ImportCodecP.
Import ListNotations.
Open Scope N_scope.
Open Scope list_scope.

(** ** Bytes *)
Lemma pair2x b : pair_text 16 (Byte.to_N b) (show2x b).
Proof. split; [apply digits_iff; [lia|]|]; destruct b; vm_compute; reflexivity. Qed.
Lemma numX b : numeral_text 16 (Byte.to_N b) (showX b).
Proof. split; [destruct b; vm_compute; discriminate|]. apply digits_iff; [lia|]; destruct b; vm_compute; reflexivity. Qed.
Lemma num02 b : numeral 10 (Byte.to_N b) (show02 b).
Proof. apply digits_iff; [lia|]; destruct b; vm_compute; reflexivity. Qed.
Lemma num10 b : numeral 10 (Byte.to_N b) (show10 b).
Proof. apply digits_iff; [lia|]; destruct b; vm_compute; reflexivity. Qed.
Lemma two02 b : two_text (Byte.to_N b) (show02 b).
Proof. split; [apply num02|]. destruct b; vm_compute; reflexivity. Qed.
Lemma dec10 b : decimal_text (Byte.to_N b) (show10 b).
Proof. exact (show_decimal (n_of b)). Qed.
Lemma flag10 f : show10 (flag f) = digit1 f.
Proof. destruct f; reflexivity. Qed.
Lemma flag02 f : show02 (flag f) = show02 (if f then x01 else x00).
Proof. reflexivity. Qed.
Lemma nodot02 b : ~ In dot (show02 b). Proof. exact (is_u8_dot 10 _ b (show02_u8 b)). Qed.
Lemma nodot10 b : ~ In dot (show10 b). Proof. exact (is_u8_dot 10 _ b (show10_u8 b)). Qed.

(** ** H.264 and VP9 *)
Lemma avc_shown c : avc_name c (show_h264 {| h4_profile := av_profile c; h4_constraints := av_compat c; h4_level := av_level c |}).
Proof. do 3 eexists. split; [reflexivity|]. auto using pair2x. Qed.

Lemma dotted_more p q ps s : dotted (q :: ps) s -> dotted (p :: q :: ps) (p ++ [dot] ++ s).
Proof. intros H. exact (dotted_cons p (q :: ps) s H). Qed.
Lemma vp9_shown c : vp9_name c (show_vp9 (Build_vp9 (vp_profile c) (vp_level c) (vp_depth c) (vp_chroma c) (vp_primaries c)
  (vp_transfer c) (vp_matrix c) (vp_full c))).
Proof.
  destruct c as [pr le de ch fu cp tr ma]. unfold show_vp9.
  cbn [v9_profile v9_level v9_depth v9_chroma v9_primaries v9_transfer v9_matrix v9_full vp_profile vp_level vp_depth vp_chroma
    vp_primaries vp_transfer vp_matrix vp_full]. unfold vp9_name. cbn [vp_profile vp_level vp_depth vp_chroma vp_primaries vp_transfer vp_matrix vp_full].
  change (text "vp09.") with (text "vp09" ++ [dot]). rewrite <- app_assoc.
  destruct (Byte.eqb ch x01 && Byte.eqb cp x01 && Byte.eqb tr x01 && Byte.eqb ma x01 && negb fu) eqn:E.
  - exists [show02 pr; show02 le; show02 de]. split.
    + rewrite app_nil_r. repeat apply dotted_more. apply dotted_one.
    + right. split; [repeat constructor; apply two02|]. repeat (apply andb_true_iff in E; destruct E as [E ?]).
      repeat match goal with H : Byte.eqb _ _ = true |- _ => apply Byte.byte_dec_bl in H; subst end. destruct fu; [discriminate|reflexivity].
  - exists [show02 pr; show02 le; show02 de; show02 ch; show02 cp; show02 tr; show02 ma; show02 (flag fu)]. split.
    + repeat apply dotted_more. apply dotted_one.
    + left. cbn [app]. repeat constructor; try apply two02.
Qed.

(** ** AV1 *)
Definition av1_of (c : av1c) : av1 :=
  Build_av1 (a_profile c) (a_level c) 77 (bit_depth (a_tier c) (a_high c)) (a_mono c) (a_x c) (a_y c) (a_pos c) x01 x01 x01 false.
Definition av1_tail (c : av1c) : list bytes :=
  if negb (a_mono c) && a_x c && a_y c && Byte.eqb (a_pos c) x00 then []
  else [digit1 (a_mono c); digit1 (a_x c) ++ digit1 (a_y c) ++ show10 (a_pos c); show02 x01; show02 x01; show02 x01; digit1 false].
Definition av1_parts (c : av1c) : list bytes :=
  text "av01" :: show10 (a_profile c) :: (show02 (a_level c) ++ text "M") :: show02 (bit_depth (a_tier c) (a_high c)) :: av1_tail c.
Lemma av1_dotted c : dotted (av1_parts c) (show_av1 (av1_of c)).
Proof.
  unfold show_av1, av1_of, av1_parts, av1_tail. cbn [a1_profile a1_level a1_tier a1_depth a1_mono a1_x a1_y a1_pos a1_color a1_transfer a1_matrix a1_full].
  change (Byte.eqb x01 x01) with true. rewrite !flag10.
  replace (negb (a_mono c) && a_x c && a_y c && Byte.eqb (a_pos c) x00 && true && true && true && negb false)
    with (negb (a_mono c) && a_x c && a_y c && Byte.eqb (a_pos c) x00) by (rewrite !andb_true_r; reflexivity).
  change (utf8 77) with (text "M"). change (text "av01.") with (text "av01" ++ [dot]). rewrite <- app_assoc. rewrite (app_assoc (show02 (a_level c))).
  destruct (negb (a_mono c) && a_x c && a_y c && Byte.eqb (a_pos c) x00).
  - rewrite app_nil_r. repeat apply dotted_more. apply dotted_one.
  - rewrite !(app_assoc (digit1 (a_x c))), !(app_assoc (digit1 (a_x c) ++ digit1 (a_y c))). repeat apply dotted_more. apply dotted_one.
Qed.
Ltac letters := cbn; let H := fresh in intros H; repeat destruct H as [H|H]; try discriminate; try exact H.
Lemma nodot_pair radix v t : pair_text radix v t -> ~ In dot t.
Proof. intros [H _]. exact (numeral_dot radix v t H). Qed.
Lemma nodot_digit1 b : ~ In dot (digit1 b).
Proof. destruct b; letters. Qed.
Lemma nodot_app (a b : bytes) : ~ In dot a -> ~ In dot b -> ~ In dot (a ++ b).
Proof. rewrite in_app_iff. tauto. Qed.
Lemma av1_nodot c : Forall (fun p => ~ In dot p) (av1_parts c).
Proof.
  unfold av1_parts, av1_tail. repeat constructor; auto using nodot10, nodot02; try (letters; fail).
  - apply nodot_app; [apply nodot02|letters].
  - destruct (negb _ && _ && _ && _); repeat constructor; auto using nodot_app, nodot10, nodot02, nodot_digit1.
Qed.

Lemma av1_exact_name c : av1c_value c -> av1_name c (show_av1 (av1_of c)) <-> av1_right c.
Proof.
  intros (Vp & Vl & Vo). assert (S := split_dotted _ _ (av1_dotted c) (av1_nodot c)). split.
  - intros (p & l & d & ps & D & Lp & Np & Nl & Nd & T).
    assert (Q : split dot (show_av1 (av1_of c)) = ascii "av01" :: p :: (l ++ ascii (if a_tier c then "H" else "M")) :: d :: ps).
    { apply split_dotted; [exact D|]. constructor; [letters|]. constructor; [exact (numeral_dot _ _ _ Np)|]. constructor; [|constructor; [exact (nodot_pair _ _ _ Nd)|]].
      - apply nodot_app; [exact (nodot_pair _ _ _ Nl)|destruct (a_tier c); letters].
      - destruct T as [(-> & _)|(ch & c1 & c2 & c3 & full & n1 & n2 & n3 & -> & (q & -> & _ & Nq) & N1 & N2 & N3)]; [constructor|].
        repeat constructor; eauto using nodot_pair, nodot_digit1. apply nodot_app; [apply nodot_digit1|].
        apply nodot_app; [apply nodot_digit1|exact (numeral_dot _ _ _ Nq)]. }
    rewrite S in Q. unfold av1_parts in Q. injection Q as _ E1 E2 E3.
    assert (Et : a_tier c = false).
    { change (text "M") with (ascii "M") in E1. destruct (a_tier c); [|reflexivity]. exfalso. apply (f_equal (fun x => last x x00)) in E1.
      cbn in E1. rewrite !last_last in E1. discriminate. }
    split; [exact Et|]. rewrite Et in E2. destruct Nd as [Nd _]. rewrite <- E2 in Nd.
    assert (Ed := numeral_unique 10 _ _ _ ltac:(lia) Nd (num02 _)). split.
    + intros (P2 & H & W). unfold av1_depth in Ed. rewrite P2, H, W in Ed. vm_compute in Ed. discriminate.
    + intros XY. unfold av1_tail in E3. destruct T as [(-> & _)|(ch & c1 & c2 & c3 & full & n1 & n2 & n3 & -> & (q & -> & Lq & Nq) & _)].
      * destruct (a_x c), (a_y c); try discriminate; destruct (a_mono c); discriminate.
      * destruct (negb (a_mono c) && a_x c && a_y c && Byte.eqb (a_pos c) x00) eqn:B; [discriminate|]. apply (f_equal (fun l => nth 1 l [])) in E3. cbn [nth] in E3.
        apply app_inv_head in E3. apply app_inv_head in E3. subst q. rewrite XY in Nq.
        assert (Z := numeral_unique 10 _ _ _ ltac:(lia) Nq (num10 _)). apply n_of_inj. symmetry. exact Z.
  - intros (Et & Ed & Ex).
    exists (show10 (a_profile c)), (show02 (a_level c)), (show02 (bit_depth (a_tier c) (a_high c))), (av1_tail c).
    split; [assert (D := av1_dotted c); unfold av1_parts in D; rewrite Et in D |- *; exact D|]. split.
    { apply (proj2 (show10_len (a_profile c))). change n_of with Byte.to_N. lia. }
    split; [apply num10|]. split.
    { split; [apply num02|]. apply (proj2 (show02_len (a_level c))). change n_of with Byte.to_N. lia. }
    split.
    { rewrite Et. split; [|destruct (a_high c); reflexivity]. replace (av1_depth c) with (Byte.to_N (bit_depth false (a_high c))); [apply num02|].
      unfold av1_depth. destruct (N.eqb_spec (Byte.to_N (a_profile c)) 2) as [E2|E2], (a_high c), (a_twelve c); try reflexivity. exfalso. auto. }
    unfold av1_tail. destruct (negb (a_mono c) && a_x c && a_y c && Byte.eqb (a_pos c) x00) eqn:B; [left|right].
    + destruct (a_mono c) eqn:Em; [discriminate|]. destruct (a_x c) eqn:Ea; [|discriminate]. destruct (a_y c) eqn:Ey; [|discriminate].
      cbn in B. apply Byte.byte_dec_bl in B. split; [reflexivity|]. split; [reflexivity|]. exists (ascii "0"). rewrite Ea, Ey, B.
      split; [reflexivity|]. split; [reflexivity|]. apply digits_iff; [lia|reflexivity].
    + do 8 eexists. split; [reflexivity|]. split.
      * exists (show10 (a_pos c)). split; [reflexivity|]. split.
        -- apply (proj2 (show10_len (a_pos c))). change n_of with Byte.to_N. lia.
        -- destruct (a_x c && a_y c) eqn:XY; [apply num10|]. rewrite (Ex eq_refl). apply digits_iff; [lia|reflexivity].
      * repeat split; apply (num02 x01).
Qed.

(** ** H.265 *)
Definition compat_value (l : list byte) : N := fold_left (fun a b => a * mul b + n_of b) l 0.
Definition h265_of (in_band : bool) (c : hvcc) : h265 :=
  {| h5_in_band := in_band; h5_space := hv_space c; h5_idc := hv_idc c; h5_compat := hv_compat c;
     h5_tier := hv_tier c; h5_level := hv_level c; h5_constraints := hv_constraints c |}.
Lemma space_shown b : Byte.to_N b <= 3 -> space_text b (show_space b).
Proof.
  intros H. unfold space_text. assert (K : b = x00 \/ b = x01 \/ b = x02 \/ b = x03).
  { destruct b; vm_compute in H; auto; exfalso; apply H; reflexivity. }
  destruct K as [ ->|[ ->|[ ->| ->]]]; vm_compute; auto 10.
Qed.
Lemma numeral_cat l : numeral 16 (compat_value l) (List.concat (map showX l)).
Proof. apply digits_iff; [lia|]. apply digits_cat. Qed.
Lemma tail_shown l : let k := List.length (drop_zeros (rev l)) in
  Forall2 (fun t b => numeral_text 16 (Byte.to_N b) t) (map showX (firstn k l)) (firstn k l) /\ Forall (fun b => b = x00) (skipn k l).
Proof.
  cbv zeta. split.
  - generalize (firstn (List.length (drop_zeros (rev l))) l). intros x. induction x as [|b x IH]; cbn [map]; constructor; [apply numX|exact IH].
  - assert (T := trailing l). cbv zeta in T. set (k := List.length (drop_zeros (rev l))) in *.
    assert (K : (k <= List.length l)%nat).
    { destruct (drop_zeros_app (rev l)) as [n L]. apply (f_equal (@List.length _)) in L. rewrite app_length, rev_length in L. unfold k. lia. }
    assert (E : skipn k l = repeat x00 (List.length l - k)).
    { rewrite T at 1. rewrite skipn_app, skipn_firstn_comm, Nat.sub_diag, firstn_length, Nat.min_l by exact K. rewrite Nat.sub_diag. reflexivity. }
    rewrite E. apply Forall_forall. intros b H. exact (repeat_spec _ _ _ H).
Qed.
Lemma hevc_core in_band c : hvcc_value c ->
  hevc_name in_band c (show_h265 (h265_of in_band c)) <->
  drop_zeros (rev (hv_compat c)) <> [] /\ mirrored 32 (flags32 (hv_compat c)) (compat_value (drop_zeros (rev (hv_compat c)))) /\
  exists i, at_ (hv_constraints c) i <> 0.
Proof.
  intros (Lc & Lk & Sp). assert (S := split_show (h265_of in_band c)). rewrite split_tail in S.
  cbn [h265_of h5_in_band h5_space h5_idc h5_compat h5_tier h5_level h5_constraints] in S. rewrite exists_nonzero. split.
  - intros (space & idc & compat & w & level & cs & k & D & Hs & Hi & Hm & Hw & Hl & Hc & Hz).
    assert (Q : split dot (show_h265 (h265_of in_band c)) = ascii (if in_band then "hev1" else "hvc1") :: (space ++ idc) :: compat ::
            (ascii (if hv_tier c then "H" else "L") ++ level) :: cs).
    { apply split_dotted; [exact D|]. constructor; [destruct in_band; letters|]. constructor.
      { apply nodot_app; [|exact (numeral_dot _ _ _ (proj1 (proj2 Hi)))]. destruct Hs as [[_ ->]|[[_ ->]|[[_ ->]|[_ ->]]]]; letters. }
      constructor; [exact (numeral_dot _ _ _ (proj2 Hw))|]. constructor.
      { apply nodot_app; [destruct (hv_tier c); letters|exact (numeral_dot _ _ _ (proj1 (proj2 Hl)))]. }
      clear -Hc. induction Hc as [|t b cs l H Hc IH]; constructor; [exact (numeral_dot _ _ _ (proj2 H))|exact IH]. }
    rewrite S in Q. injection Q as _ _ E2 _ E4. destruct Hw as [NE Hw]. rewrite <- E2 in NE, Hw.
    split; [intros Z; apply NE; rewrite Z; reflexivity|]. split.
    + rewrite (numeral_unique 16 _ _ _ ltac:(lia) (numeral_cat _) Hw). exact Hm.
    + intros Z. rewrite Z in E4. subst cs. inversion Hc as [|? ? ? ? H _]. destruct H as [H _]. congruence.
  - intros (NE & Hm & NZ). set (dz := drop_zeros (rev (hv_constraints c))) in *.
    assert (T := tail_shown (hv_constraints c)). cbv zeta in T. fold dz in T. destruct T as [T1 T2].
    exists (show_space (hv_space c)), (show10 (hv_idc c)), (List.concat (map showX (drop_zeros (rev (hv_compat c))))), (compat_value (drop_zeros (rev (hv_compat c)))),
      (show10 (hv_level c)), (map showX (firstn (List.length dz) (hv_constraints c))), (List.length dz).
    split.
    { assert (D := dotted_split (show_h265 (h265_of in_band c))). rewrite S in D.
      destruct dz as [|z dz]; [congruence|]. destruct in_band, (hv_tier c); exact D. }
    split; [apply space_shown, Sp|]. split; [apply dec10|]. split; [exact Hm|]. split.
    { split; [|apply numeral_cat]. destruct (drop_zeros (rev (hv_compat c))) as [|b l]; [congruence|]. cbn. intros E. apply app_eq_nil in E.
      apply (proj1 (numX b)), (proj1 E). }
    split; [apply dec10|]. split; [exact T1|exact T2].
Qed.

(** Reversing bits *)
Lemma low_bits b n i : N.testbit (n_of b + 256 * n) i = if i <? 8 then N.testbit (n_of b) i else N.testbit n (i - 8).
Proof.
  assert (B := n_of_lt b). assert (Hm : (n_of b + 256 * n) mod 2 ^ 8 = n_of b).
  { change (2 ^ 8) with 256. rewrite (N.mul_comm 256), N.mod_add by lia. apply N.mod_small, B. }
  assert (Hd : (n_of b + 256 * n) / 2 ^ 8 = n).
  { change (2 ^ 8) with 256. rewrite (N.mul_comm 256), N.div_add by lia. rewrite N.div_small by exact B. reflexivity. }
  destruct (N.ltb_spec i 8) as [H|H].
  - rewrite <- Hm at 2. rewrite N.mod_pow2_bits_low by exact H. reflexivity.
  - rewrite <- Hd at 2. rewrite N.div_pow2_bits. f_equal. lia.
Qed.
Lemma mirror4 c0 c1 c2 c3 :
  mirrored 32 (flags32 [c0; c1; c2; c3]) (n_of c0 + 256 * (n_of c1 + 256 * (n_of c2 + 256 * (n_of c3 + 256 * 0)))) <->
  palindrome c0 /\ palindrome c1 /\ palindrome c2 /\ palindrome c3.
Proof.
  assert (B0 := n_of_lt c0). assert (B1 := n_of_lt c1). assert (B2 := n_of_lt c2). assert (B3 := n_of_lt c3).
  replace (flags32 [c0; c1; c2; c3]) with (n_of c3 + 256 * (n_of c2 + 256 * (n_of c1 + 256 * (n_of c0 + 256 * 0)))).
  2:{ unfold flags32. cbn [nth]. change Byte.to_N with n_of. lia. }
  unfold mirrored, palindrome, mirrored. change Byte.to_N with n_of. split.
  - intros [_ H]. repeat split; try (change (2 ^ 8) with 256; assumption).
    + intros i Hi. specialize (H i ltac:(lia)). rewrite !low_bits in H. rewrite (proj2 (N.ltb_lt i 8) Hi) in H.
      rewrite !(proj2 (N.ltb_ge _ 8)) in H by lia. rewrite (proj2 (N.ltb_lt (32 - 1 - i - 8 - 8 - 8) 8)) in H by lia.
      rewrite H. f_equal. lia.
    + intros i Hi. specialize (H (8 + i) ltac:(lia)). rewrite !low_bits in H. rewrite (proj2 (N.ltb_ge (8 + i) 8)) in H by lia.
      rewrite (proj2 (N.ltb_lt (8 + i - 8) 8)) in H by lia.
      rewrite (proj2 (N.ltb_ge (32 - 1 - (8 + i)) 8)) in H by lia. rewrite (proj2 (N.ltb_ge (32 - 1 - (8 + i) - 8) 8)) in H by lia.
      rewrite (proj2 (N.ltb_lt (32 - 1 - (8 + i) - 8 - 8) 8)) in H by lia.
      replace (8 + i - 8) with i in H by lia. rewrite H. f_equal. lia.
    + intros i Hi. specialize (H (16 + i) ltac:(lia)). rewrite !low_bits in H. rewrite (proj2 (N.ltb_ge (16 + i) 8)) in H by lia.
      rewrite (proj2 (N.ltb_ge (16 + i - 8) 8)) in H by lia. rewrite (proj2 (N.ltb_lt (16 + i - 8 - 8) 8)) in H by lia.
      rewrite (proj2 (N.ltb_ge (32 - 1 - (16 + i)) 8)) in H by lia. rewrite (proj2 (N.ltb_lt (32 - 1 - (16 + i) - 8) 8)) in H by lia.
      replace (16 + i - 8 - 8) with i in H by lia. rewrite H. f_equal. lia.
    + intros i Hi. specialize (H (24 + i) ltac:(lia)). rewrite !low_bits in H. rewrite (proj2 (N.ltb_ge (24 + i) 8)) in H by lia.
      rewrite (proj2 (N.ltb_ge (24 + i - 8) 8)) in H by lia. rewrite (proj2 (N.ltb_ge (24 + i - 8 - 8) 8)) in H by lia.
      rewrite (proj2 (N.ltb_lt (24 + i - 8 - 8 - 8) 8)) in H by lia. rewrite (proj2 (N.ltb_lt (32 - 1 - (24 + i)) 8)) in H by lia.
      replace (24 + i - 8 - 8 - 8) with i in H by lia. rewrite H. f_equal. lia.
  - intros ([_ H0] & [_ H1] & [_ H2] & [_ H3]). split; [change (2 ^ 32) with 4294967296; lia|]. intros i Hi. rewrite !low_bits.
    destruct (N.ltb_spec i 8); [|destruct (N.ltb_spec (i - 8) 8); [|destruct (N.ltb_spec (i - 8 - 8) 8); [|destruct (N.ltb_spec (i - 8 - 8 - 8) 8); [|lia]]]].
    + rewrite H0 by lia. rewrite (proj2 (N.ltb_ge (32 - 1 - i) 8)) by lia. rewrite (proj2 (N.ltb_ge (32 - 1 - i - 8) 8)) by lia.
      rewrite (proj2 (N.ltb_ge (32 - 1 - i - 8 - 8) 8)) by lia. rewrite (proj2 (N.ltb_lt (32 - 1 - i - 8 - 8 - 8) 8)) by lia. f_equal. lia.
    + rewrite H1 by lia. rewrite (proj2 (N.ltb_ge (32 - 1 - i) 8)) by lia. rewrite (proj2 (N.ltb_ge (32 - 1 - i - 8) 8)) by lia.
      rewrite (proj2 (N.ltb_lt (32 - 1 - i - 8 - 8) 8)) by lia. f_equal. lia.
    + rewrite H2 by lia. rewrite (proj2 (N.ltb_ge (32 - 1 - i) 8)) by lia. rewrite (proj2 (N.ltb_lt (32 - 1 - i - 8) 8)) by lia. f_equal. lia.
    + rewrite H3 by lia. rewrite (proj2 (N.ltb_lt (32 - 1 - i) 8)) by lia. f_equal. lia.
Qed.
Lemma hevc_one in_band c b : hvcc_value c -> hv_compat c = [b; x00; x00; x00] ->
  hevc_name in_band c (show_h265 (h265_of in_band c)) <-> hevc_right c.
Proof.
  intros V E. rewrite (hevc_core in_band c V). unfold hevc_right. rewrite E. cbn [nth].
  assert (P0 : palindrome x00) by (split; [reflexivity|intros i _; rewrite !N.bits_0; reflexivity]).
  assert (D : drop_zeros (rev [b; x00; x00; x00]) = if Byte.eqb b x00 then [] else [b]) by reflexivity.
  rewrite D. destruct (byte_eqb_spec b x00) as [ ->|Nb]; [split; [intros [H _]|intros [H _]]; congruence|].
  assert (M := mirror4 b x00 x00 x00). change (n_of x00) with 0 in M. rewrite !N.add_0_l, !N.mul_0_r, N.add_0_r in M.
  assert (C : compat_value [b] = n_of b) by reflexivity. rewrite C, M.
  split; [intros (_ & (H & _) & K)|intros (_ & H & K)]; repeat split; try exact P0; try exact Nb; try exact K; try discriminate; try apply H.
Qed.
Lemma hevc_enough in_band c : hvcc_value c -> h265_good (h265_of in_band c) -> Forall palindrome (hv_compat c) ->
  hevc_name in_band c (show_h265 (h265_of in_band c)).
Proof.
  intros V (_ & G1 & G2 & G3) P. cbn [h265_of h5_compat h5_constraints] in G1, G2, G3. apply (hevc_core in_band c V).
  split; [apply exists_nonzero, G1|]. split; [|exact G3].
  destruct (proj2 (compat_exact (hv_compat c) (proj1 V)) (conj G1 G2)) as (v & Ev & El).
  assert (NE : drop_zeros (rev (hv_compat c)) <> []) by (apply exists_nonzero, G1). rewrite (parse_cat _ NE) in Ev. fold (compat_value (drop_zeros (rev (hv_compat c)))) in Ev.
  destruct (compat_value (drop_zeros (rev (hv_compat c))) <=? 2 ^ 32 - 1) eqn:B; [|discriminate]. apply N.leb_le in B. injection Ev as Ev.
  destruct (hv_compat c) as [|c0 [|c1 [|c2 [|c3 [|]]]]] eqn:Ec; try (destruct V as [V _]; rewrite Ec in V; discriminate).
  apply le4 in El; [|change (2 ^ 32) with 4294967296 in *; lia]. rewrite Ev, El.
  replace (n_of c0 + 256 * n_of c1 + 65536 * n_of c2 + 16777216 * n_of c3) with (n_of c0 + 256 * (n_of c1 + 256 * (n_of c2 + 256 * (n_of c3 + 256 * 0)))) by lia.
  apply mirror4. inversion_clear P as [|? ? P0 Q]. inversion_clear Q as [|? ? P1 Q']. inversion_clear Q' as [|? ? P2 Q]. inversion_clear Q as [|? ? P3 Q']. auto.
Qed.

(** ** From the box to the catalog *)
Section Floats.
Context {F64 F32 : Type}.
Definition made_from (k : mtrak) (r : rendition (@video_info F64) audio_info) : Prop :=
  (mt_hdlr k = Vide /\ exists v, r = RV v /\ init_video k = inl v) \/ (mt_hdlr k = Soun /\ exists a, r = RA a /\ init_audio k = inl a).
Lemma init_from ks : forall (m m' : movie F64 F32) o, init_movie ks m = (m', o) ->
  exists l, mo_made m' = mo_made m ++ l /\ Forall2 made_from (firstn (List.length l) ks) l.
Proof.
  induction ks as [|k ks IH]; intros m m' o E; cbn in E; [injection E as <- _; exists []; split; [symmetry; apply app_nil_r|constructor]|].
  assert (Z : forall e, (m, Some e) = (m', o) -> exists l, mo_made m' = mo_made m ++ l /\ Forall2 made_from (firstn (List.length l) (k :: ks)) l).
  { intros e Q. injection Q as <- _. exists []. split; [symmetry; apply app_nil_r|constructor]. }
  assert (Y : forall r, made_from k r -> init_movie ks (create r (mt_id k) m) = (m', o) ->
    exists l, mo_made m' = mo_made m ++ l /\ Forall2 made_from (firstn (List.length l) (k :: ks)) l).
  { intros r M Q. destruct (IH _ _ _ Q) as (l & El & F). exists (r :: l). cbn [create mo_made] in El. rewrite <- app_assoc in El. split; [exact El|]. cbn. constructor; assumption. }
  destruct (mt_hdlr k) eqn:H; try (eapply Z; exact E).
  - destruct (init_video k) as [v|e] eqn:V; [|eapply Z; exact E]. apply (Y (RV v)); [left; eauto|exact E].
  - destruct (init_audio k) as [v|e] eqn:V; [|eapply Z; exact E]. apply (Y (RA v)); [right; eauto|exact E].
Qed.
Lemma nth_from ks (m : movie F64 F32) o i k r : init_movie ks movie_new = (m, o) -> nth_error ks i = Some k -> nth_error (mo_made m) i = Some r -> made_from k r.
Proof.
  intros E. destruct (init_from ks _ _ _ E) as (l & -> & F). cbn [movie_new mo_made app]. clear E. revert ks F i.
  induction l as [|x l IH]; intros ks F i Ek Er; [destruct i; discriminate|]. destruct ks as [|y ks]; [destruct i; discriminate|]. cbn in F. inversion F; subst.
  destruct i as [|i]; cbn in *; [congruence|]. eapply IH; eassumption.
Qed.
Lemma named_one k (r : rendition (@video_info F64) audio_info) e : made_from k r -> trak_value k -> In e (mt_entries k) -> first_flags e ->
  standard_name e (codec_text r) <-> right_entry e.
Proof.
  intros M [_ V] I O. destruct M as [(_ & v & -> & E)|(_ & a & -> & E)].
  - unfold init_video in E. destruct (mt_entries k) as [|e' [|]]; cbn [the_entry] in E; try discriminate. destruct I as [->|[]]. inversion_clear V as [|? ? W _].
    destruct e as [x c|x c|x c|x|x c|x c|a d|a|n|]; try discriminate; cbn [standard_name right_entry entry_value] in *.
    + destruct (av_body c); [|discriminate]. injection E as <-. split; [intros _; exact I|]. intros _. apply avc_shown.
    + unfold init_h265 in E. destruct (hv_body c); [|discriminate]. injection E as <-. destruct O as [f0 O]. apply (hevc_one true c f0 (proj2 W) O).
    + unfold init_h265 in E. destruct (hv_body c); [|discriminate]. injection E as <-. destruct O as [f0 O]. apply (hevc_one false c f0 (proj2 W) O).
    + injection E as <-. split; [intros _; exact I|]. reflexivity.
    + injection E as <-. split; [intros _; exact I|]. intros _. apply vp9_shown.
    + injection E as <-. exact (av1_exact_name c (proj2 W)).
  - unfold init_audio in E. destruct (mt_entries k) as [|e' [|]]; cbn [the_entry] in E; try discriminate. destruct I as [->|[]].
    destruct e as [x c|x c|x c|x|x c|x c|a' d|a'|n|]; try discriminate; cbn [standard_name right_entry] in *.
    + destruct (negb _); [discriminate|]. injection E as <-. split; [intros _; exact I|]. intros _. exists (show10 (es_profile d)). split; [reflexivity|apply dec10].
    + injection E as <-. split; [intros _; exact I|reflexivity].
Qed.
Lemma named_hevc k (r : rendition (@video_info F64) audio_info) e v c : made_from k r -> trak_value k -> In e (mt_entries k) -> e = Hev1 v c \/ e = Hvc1 v c ->
  readable_entry e -> Forall palindrome (hv_compat c) -> standard_name e (codec_text r).
Proof.
  intros M [_ V] I K R P. destruct M as [(_ & x & -> & E)|(_ & a & -> & E)].
  2:{ unfold init_audio in E. destruct (mt_entries k) as [|e' [|]]; cbn [the_entry] in E; try discriminate. destruct I as [->|[]]. destruct K as [-> | ->]; discriminate. }
  unfold init_video in E. destruct (mt_entries k) as [|e' [|]]; cbn [the_entry] in E; try discriminate. destruct I as [->|[]]. inversion_clear V as [|? ? W _].
  assert (G : forall b, hvcc_value c -> readable_entry (Hev1 v c) -> h265_good (h265_of b c)).
  { intros b (_ & _ & S) Q. unfold h265_good. cbn in *. split; [lia|exact Q]. }
  destruct K as [-> | ->]; unfold init_h265 in E; destruct (hv_body c); try discriminate; injection E as <-; cbn [standard_name entry_value] in *.
  - apply (hevc_enough true c); [apply W|apply G; [apply W|exact R]|exact P].
  - apply (hevc_enough false c); [apply W|apply G; [apply W|exact R]|exact P].
Qed.
Lemma not_palindrome c : hevc_profile c -> ~ hevc_right c.
Proof.
  intros H (_ & [_ P] & _). pose proof (P 2 ltac:(reflexivity)) as P0. pose proof (P 1 ltac:(reflexivity)) as P1. pose proof (P 3 ltac:(reflexivity)) as P3. clear P.
  unfold hevc_profile in H. cbn [In] in H. destruct H as [H|[H|[H|[H|[]]]]]; rewrite <- H in *; vm_compute in P0, P1, P3; discriminate.
Qed.
End Floats.
