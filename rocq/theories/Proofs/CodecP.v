(** Codec names: proofs. *)
From Coq Require Import NArith List Lia Bool ZArith ZifyBool ZifyN.
From Coq Require Import Strings.String.
From Coq Require Import Init.Byte Strings.Byte.
From Verif.Model Require Import Base Map Text Codec.
From Verif.Spec Require Import CodingSpec CodecSpec.
From Verif.Proofs Require Import BaseP MapP TextP.
Import ListNotations.
Open Scope nat_scope.
Open Scope list_scope.
Notation length := List.length.

(** ** Prefixes *)
Lemma str_eqb_eq a b : str_eqb a b = true <-> a = b.
Proof. destruct (str_eqb_spec a b); split; congruence. Qed.

Lemma starts_with_iff p s : starts_with p s = true <-> exists r, s = p ++ r.
Proof.
  unfold starts_with. split.
  - intros H. apply str_eqb_eq in H. exists (skipn (length p) s). rewrite <- H at 1. symmetry. apply firstn_skipn.
  - intros [r ->]. rewrite firstn_len_app. apply str_eqb_eq. reflexivity.
Qed.
Lemma strip_prefix_app p r : strip_prefix p (p ++ r) = Some r.
Proof.
  unfold strip_prefix. rewrite (proj2 (starts_with_iff p (p ++ r))) by (exists r; reflexivity).
  rewrite skipn_len_app. reflexivity.
Qed.
Lemma strip_prefix_iff p s r : strip_prefix p s = Some r <-> s = p ++ r.
Proof.
  split; [|intros ->; apply strip_prefix_app]. unfold strip_prefix. destruct (starts_with p s) eqn:E; [|discriminate].
  apply starts_with_iff in E. destruct E as [q ->]. rewrite skipn_len_app. congruence.
Qed.

(** ** Numbers *)
Lemma digit_iff radix b d : (radix <= 36)%N -> digit radix b = Some d <-> digit_of radix d b.
Proof.
  intros R. unfold digit, digit_of. change Byte.to_N with n_of. assert (Hb := n_of_lt b). split.
  - destruct ((48 <=? n_of b) && (n_of b <=? 57))%N eqn:E1; [|destruct ((97 <=? n_of b) && (n_of b <=? 122))%N eqn:E2;
      [|destruct ((65 <=? n_of b) && (n_of b <=? 90))%N eqn:E3; [|discriminate]]];
    match goal with |- context [if (?x <? ?y)%N then _ else _] => destruct (N.ltb_spec x y); [|discriminate] end;
    intros H0; injection H0 as <-; lia.
  - intros [H [[H1 H2]|[H1 [H2|H2]]]]; rewrite H2;
    repeat match goal with |- context [if ?x then _ else _] => destruct x eqn:?; try lia end; f_equal; lia.
Qed.
Lemma digits_numeral radix t n : (radix <= 36)%N -> digits radix 0 (rev t) = Some n -> numeral radix n (rev t).
Proof.
  intros R. revert n. induction t as [|b t IH]; intros n; cbn [rev].
  - intros H. injection H as <-. constructor.
  - rewrite digits_app. destruct (digits radix 0 (rev t)) as [v|] eqn:E; [|discriminate]. cbn [digits].
    destruct (digit radix b) as [d|] eqn:D; [|discriminate]. intros H. injection H as <-.
    constructor; [apply IH; reflexivity|]. apply digit_iff; assumption.
Qed.
Lemma digits_iff radix t n : (radix <= 36)%N -> digits radix 0 t = Some n <-> numeral radix n t.
Proof.
  intros R. split.
  - intros H. rewrite <- (rev_involutive t) in *. apply digits_numeral; assumption.
  - induction 1 as [|v ds d b _ IH D]; [reflexivity|]. rewrite digits_app, IH. cbn [digits].
    apply digit_iff in D; [|exact R]. rewrite D. reflexivity.
Qed.
Lemma number_iff radix max v t : (radix <= 36)%N -> parse_uint radix max t = Some v <-> number radix max v t.
Proof.
  intros R. rewrite parse_uint_some. unfold number. split; intros [L (ds & NE & A & B)]; (split; [exact L|]);
    exists ds; (split; [exact NE|]).
  - split; [apply digits_iff; assumption|]. destruct A; [left|right]; assumption.
  - split; [destruct B; [left|right]; assumption|]. apply digits_iff; assumption.
Qed.
Lemma parse_u8_iff radix t b : (radix <= 36)%N -> parse_u8 radix t = Parsed b <-> is_u8 radix t b.
Proof.
  intros R. unfold parse_u8, is_u8. rewrite <- number_iff by exact R. change Byte.to_N with n_of. split.
  - destruct (parse_uint radix 255 t) as [v|] eqn:E; [|discriminate]. intros H. injection H as <-.
    assert (L : (v <= 255)%N) by (apply parse_uint_some in E; destruct E; assumption). rewrite n_of_small by lia. reflexivity.
  - intros ->. rewrite u8_n_of. reflexivity.
Qed.
Lemma parse_u8_cases radix t : (exists b, parse_u8 radix t = Parsed b) \/ parse_u8 radix t = BadNumber.
Proof. unfold parse_u8. destruct (parse_uint radix 255 t); [left; eauto|right; reflexivity]. Qed.

Lemma numeral_dot radix v t : numeral radix v t -> ~ In dot t.
Proof.
  induction 1 as [|v ds d b _ IH D]; [intros []|]. intros H. apply in_app_or in H. destruct H as [H|[->|[]]]; [auto|].
  unfold digit_of in D. change (Byte.to_N dot) with 46%N in D. lia.
Qed.
Lemma number_dot radix max v t : number radix max v t -> ~ In dot t.
Proof.
  intros [_ (ds & _ & H & [->| ->])]; [eapply numeral_dot, H|]. intros [E|E]; [discriminate|]. eapply numeral_dot; eassumption.
Qed.
Lemma is_u8_dot radix t b : is_u8 radix t b -> ~ In dot t.
Proof. apply number_dot. Qed.
(** ** Splitting *)
Lemma dotted_split s : dotted (split dot s) s.
Proof.
  induction s as [|b s IH]; cbn [split]; [constructor|]. destruct (byte_eqb_spec b dot) as [->|Hb].
  - apply (dotted_cons [] (split dot s) s IH).
  - destruct (split dot s) as [|x l] eqn:E; [destruct (split_ne dot s E)|].
    inversion IH; subst; [constructor|]. change (b :: x ++ ascii "." ++ s0) with ((b :: x) ++ ascii "." ++ s0). constructor. assumption.
Qed.
Lemma split_dotted ps s : dotted ps s -> Forall (fun p => ~ In dot p) ps -> split dot s = ps.
Proof.
  induction 1 as [p|p ps s _ IH]; intros F; inversion_clear F as [|? ? F1 F2]; [apply split_free, F1|].
  change (p ++ ascii "." ++ s) with (p ++ dot :: s). rewrite split_app by exact F1. rewrite IH by exact F2. reflexivity.
Qed.

(** ** Printing bytes *)
Lemma show2x_u8 b : is_u8 16 (show2x b) b /\ length (show2x b) = 2.
Proof. split; [apply parse_u8_iff; [lia|]|]; destruct b; vm_compute; reflexivity. Qed.
Lemma showX_u8 b : is_u8 16 (showX b) b.
Proof. apply parse_u8_iff; [lia|]; destruct b; vm_compute; reflexivity. Qed.
Lemma show10_u8 b : is_u8 10 (show10 b) b.
Proof. apply parse_u8_iff; [lia|]; destruct b; vm_compute; reflexivity. Qed.
Lemma show02_u8 b : is_u8 10 (show02 b) b.
Proof. apply parse_u8_iff; [lia|]; destruct b; vm_compute; reflexivity. Qed.

Lemma numeral_ascii radix v t : (radix <= 36)%N -> numeral radix v t -> Forall (fun c => n_of c < 128)%N t.
Proof.
  intros R. induction 1 as [|v ds d b _ IH D]; [constructor|]. apply Forall_app. split; [exact IH|]. constructor; [|constructor].
  unfold digit_of in D. change Byte.to_N with n_of in D. lia.
Qed.
Lemma number_ascii radix max v t : (radix <= 36)%N -> number radix max v t -> Forall (fun c => n_of c < 128)%N t.
Proof.
  intros R [_ (ds & _ & H & [->| ->])]; [eapply numeral_ascii; eassumption|]. constructor; [reflexivity|]. eapply numeral_ascii; eassumption.
Qed.

Ltac conjs := repeat match goal with |- _ /\ _ => split end.

(** ** H.264 *)
Lemma head_part q : exists p rest, q = p ++ rest /\ ~ In dot p /\ ends_part rest.
Proof.
  induction q as [|b q IH]; [exists [], []; repeat split; [intros []|left; reflexivity]|].
  destruct (byte_eqb_spec b dot) as [->|Hb].
  - exists [], (dot :: q). repeat split; [intros []|right; exists q; reflexivity].
  - destruct IH as (p & rest & -> & N & E). exists (b :: p), rest. repeat split; [|exact E]. intros [H|H]; auto.
Qed.
Lemma split_head p rest : ~ In dot p -> ends_part rest -> exists l, split dot (p ++ rest) = p :: l.
Proof.
  intros N [->|[r ->]].
  - rewrite app_nil_r, split_free by exact N. eauto.
  - change (ascii "." ++ r) with (dot :: r). rewrite split_app by exact N. eauto.
Qed.
Lemma head_unique p rest p' rest' : p ++ rest = p' ++ rest' -> ~ In dot p -> ~ In dot p' -> ends_part rest -> ends_part rest' ->
  p = p' /\ rest = rest'.
Proof.
  intros E N N' H H'. assert (K : p = p').
  { destruct (split_head p rest N H) as [l L]. destruct (split_head p' rest' N' H') as [l' L']. rewrite E in L. congruence. }
  subst. apply app_inv_head in E. auto.
Qed.

Definition h264_body (part : bytes) : parsed h264 :=
  if negb (Nat.eqb (length part) 6) then InvalidCodec else
  pbind (slice part 0 2) (fun a => pbind (parse_u8 16 a) (fun profile =>
  pbind (slice part 2 4) (fun b => pbind (parse_u8 16 b) (fun constraints =>
  pbind (slice part 4 6) (fun c => pbind (parse_u8 16 c) (fun level =>
  Parsed {| h4_profile := profile; h4_constraints := constraints; h4_level := level |})))))).

Lemma parse_h264_head p rest : ~ In dot p -> ends_part rest -> parse_h264 (ascii "avc1." ++ p ++ rest) = h264_body p.
Proof.
  intros N H. destruct (split_head p rest N H) as [l L]. unfold parse_h264.
  change (ascii "avc1." ++ p ++ rest) with (ascii "avc1" ++ dot :: p ++ rest). rewrite split_app by (cbn; intuition discriminate).
  rewrite L. reflexivity.
Qed.
Lemma parse_h264_other s : ~ begins "avc1." s -> parse_h264 s = InvalidCodec.
Proof.
  intros N. unfold parse_h264. assert (D := dotted_split s). destruct (split dot s) as [|p0 ps]; [reflexivity|].
  destruct (str_eqb_spec p0 (text "avc1")) as [->|]; [|reflexivity]. inversion D; subst; [reflexivity|].
  destruct N. exists s0. reflexivity.
Qed.

Lemma slice_6 b0 b1 b2 b3 b4 b5 : let p := [b0; b1; b2; b3; b4; b5] in
  slice p 0 2 = (if cont b2 then Panics else Parsed [b0; b1]) /\
  slice p 2 4 = (if cont b2 then Panics else if cont b4 then Panics else Parsed [b2; b3]) /\
  slice p 4 6 = (if cont b4 then Panics else Parsed [b4; b5]).
Proof.
  unfold slice, boundary. cbn [nth_error length Nat.eqb Nat.leb orb andb firstn skipn Nat.sub].
  destruct (cont b2), (cont b4); cbn; auto.
Qed.
Lemma cont_iff b : cont b = true <-> (128 <= n_of b /\ n_of b < 192)%N.
Proof. unfold cont, in_range. lia. Qed.

Lemma h264_body_parsed p h : h264_body p = Parsed h <->
  exists a b c, p = a ++ b ++ c /\ length a = 2 /\ length b = 2 /\ length c = 2 /\
    is_u8 16 a (h4_profile h) /\ is_u8 16 b (h4_constraints h) /\ is_u8 16 c (h4_level h).
Proof.
  unfold h264_body. split.
  - destruct (Nat.eqb_spec (length p) 6) as [L|]; [|discriminate]. cbn [negb].
    destruct p as [|b0 [|b1 [|b2 [|b3 [|b4 [|b5 [|]]]]]]]; try discriminate.
    destruct (slice_6 b0 b1 b2 b3 b4 b5) as (S1 & S2 & S3). rewrite S1, S2, S3.
    destruct (cont b2); [discriminate|]. cbn [pbind].
    destruct (parse_u8 16 [b0; b1]) eqn:P1; try discriminate. cbn [pbind].
    destruct (cont b4); [discriminate|]. cbn [pbind].
    destruct (parse_u8 16 [b2; b3]) eqn:P2; try discriminate. cbn [pbind].
    destruct (parse_u8 16 [b4; b5]) eqn:P3; try discriminate. cbn [pbind].
    intros H. injection H as <-. apply parse_u8_iff in P1, P2, P3; try lia.
    exists [b0; b1], [b2; b3], [b4; b5]. conjs; (assumption || reflexivity).
  - intros (a & b & c & -> & La & Lb & Lc & A & B & C).
    destruct a as [|b0 [|b1 [|]]]; try discriminate. destruct b as [|b2 [|b3 [|]]]; try discriminate.
    destruct c as [|b4 [|b5 [|]]]; try discriminate. cbn [app length Nat.eqb negb].
    destruct (slice_6 b0 b1 b2 b3 b4 b5) as (S1 & S2 & S3). rewrite S1, S2, S3.
    assert (B2 := number_ascii 16 255 _ _ ltac:(lia) B). assert (B4 := number_ascii 16 255 _ _ ltac:(lia) C).
    inversion_clear B2 as [|? ? K2 _]. inversion_clear B4 as [|? ? K4 _].
    destruct (cont b2) eqn:E2; [apply cont_iff in E2; lia|]. destruct (cont b4) eqn:E4; [apply cont_iff in E4; lia|]. cbn [pbind].
    apply parse_u8_iff in A, B, C; try lia. rewrite A. cbn [pbind]. rewrite B. cbn [pbind]. rewrite C. cbn [pbind]. destruct h; reflexivity.
Qed.

Lemma begins_dec p s : begins p s \/ ~ begins p s.
Proof.
  destruct (starts_with (ascii p) s) eqn:E; [left; apply starts_with_iff, E|right]. intros H.
  assert (K : starts_with (ascii p) s = true) by (apply starts_with_iff, H). congruence.
Qed.

Lemma parse_h264_iff s h : parse_h264 s = Parsed h <-> h264_text s h.
Proof.
  split.
  - intros H. destruct (begins_dec "avc1." s) as [[q ->]|N]; [|rewrite parse_h264_other in H by exact N; discriminate].
    destruct (head_part q) as (p & rest & -> & N & E). rewrite parse_h264_head in H by assumption.
    apply h264_body_parsed in H. destruct H as (a & b & c & -> & La & Lb & Lc & A & B & C).
    exists a, b, c, rest. rewrite <- !app_assoc. conjs; (assumption || reflexivity).
  - intros (a & b & c & rest & -> & La & Lb & Lc & A & B & C & E).
    replace (a ++ b ++ c ++ rest) with ((a ++ b ++ c) ++ rest) by (rewrite <- !app_assoc; reflexivity).
    rewrite parse_h264_head; [|rewrite !in_app_iff; intros [H|[H|H]]; revert H; eapply is_u8_dot; eassumption|exact E].
    apply h264_body_parsed. exists a, b, c. conjs; (assumption || reflexivity).
Qed.
Lemma show_h264_text h : h264_text (show_h264 h) h.
Proof.
  destruct (show2x_u8 (h4_profile h)), (show2x_u8 (h4_constraints h)), (show2x_u8 (h4_level h)).
  exists (show2x (h4_profile h)), (show2x (h4_constraints h)), (show2x (h4_level h)), [].
  rewrite app_nil_r. conjs; try assumption; try reflexivity. left. reflexivity.
Qed.
Lemma h264_roundtrip h : parse_h264 (show_h264 h) = Parsed h.
Proof. apply parse_h264_iff, show_h264_text. Qed.

Lemma h264_body_panics p : h264_body p = Panics <->
  length p = 6 /\ (inside p 2 \/ ((exists v, number 16 255 v (firstn 2 p)) /\ inside p 4)).
Proof.
  unfold h264_body. destruct (Nat.eqb_spec (length p) 6) as [L|L]; [|split; [discriminate|tauto]]. cbn [negb].
  destruct p as [|b0 [|b1 [|b2 [|b3 [|b4 [|b5 [|]]]]]]]; try discriminate.
  assert (I : forall i b, nth_error [b0; b1; b2; b3; b4; b5] i = Some b -> inside [b0; b1; b2; b3; b4; b5] i <-> cont b = true).
  { intros i b E. rewrite cont_iff. unfold inside. change Byte.to_N with n_of. split.
    - intros (b' & E' & K). rewrite E in E'. injection E' as <-. exact K.
    - intros K. exists b. auto. }
  rewrite (I 2 b2 eq_refl), (I 4 b4 eq_refl). clear I. cbn [firstn].
  destruct (slice_6 b0 b1 b2 b3 b4 b5) as (S1 & S2 & S3). rewrite S1, S2, S3.
  destruct (cont b2); [cbn; intuition|]. cbn [pbind].
  assert (Q : (exists b, parse_u8 16 [b0; b1] = Parsed b) <-> exists v, number 16 255 v [b0; b1]).
  { split; intros [v H].
    - exists (n_of v). apply parse_u8_iff in H; [exact H|lia].
    - apply number_iff in H; [|lia]. unfold parse_u8. rewrite H. eauto. }
  rewrite <- Q. destruct (parse_u8_cases 16 [b0; b1]) as [[b E]|E]; rewrite E; cbn [pbind].
  2:{ split; [discriminate|]. intros [_ [H|[[b H] _]]]; discriminate. }
  destruct (cont b4); [cbn; intuition eauto|]. cbn [pbind].
  split; [|intros [_ [H|[_ H]]]; discriminate].
  destruct (parse_u8_cases 16 [b2; b3]) as [[b' E']|E']; rewrite E'; cbn [pbind]; [|discriminate].
  destruct (parse_u8_cases 16 [b4; b5]) as [[b'' E'']|E'']; rewrite E''; cbn [pbind]; discriminate.
Qed.
Lemma parse_h264_panics s : parse_h264 s = Panics <-> h264_cut s.
Proof.
  split.
  - intros H. destruct (begins_dec "avc1." s) as [[q ->]|N]; [|rewrite parse_h264_other in H by exact N; discriminate].
    destruct (head_part q) as (p & rest & -> & N & E). rewrite parse_h264_head in H by assumption.
    apply h264_body_panics in H. destruct H as [L H]. exists p, rest. conjs; (assumption || reflexivity).
  - intros (p & rest & -> & L & N & E & H). rewrite parse_h264_head by assumption. apply h264_body_panics. auto.
Qed.

(** ** VP9 *)
Lemma parse_all_iff l bs : parse_all l = Parsed bs <-> Forall2 (is_u8 10) l bs.
Proof.
  revert bs. induction l as [|p l IH]; intros bs; cbn [parse_all].
  - split; [intros H; injection H as <-; constructor|intros H; inversion H; reflexivity].
  - split.
    + destruct (parse_u8 10 p) as [b| | |] eqn:E; try discriminate. cbn [pbind].
      destruct (parse_all l) as [r| | |] eqn:F; try discriminate. cbn [pbind]. intros H. injection H as <-.
      constructor; [apply parse_u8_iff; [lia|exact E]|apply IH; reflexivity].
    + intros H. inversion H as [|? b ? r A B]; subst. apply parse_u8_iff in A; [|lia]. rewrite A. cbn [pbind].
      apply IH in B. rewrite B. reflexivity.
Qed.
Lemma parse_all_np l : parse_all l <> Panics.
Proof.
  induction l as [|p l IH]; [discriminate|]. cbn [parse_all]. destruct (parse_u8_cases 10 p) as [[b E]|E]; rewrite E; cbn [pbind]; [|discriminate].
  destruct (parse_all l); cbn [pbind]; congruence.
Qed.
Lemma nums_nodot parts nums : Forall2 (is_u8 10) parts nums -> Forall (fun p => ~ In dot p) parts.
Proof. induction 1; constructor; [eapply is_u8_dot; eassumption|assumption]. Qed.

Lemma parse_vp9_iff s v : parse_vp9 s = Parsed v <-> vp9_text s v.
Proof.
  unfold parse_vp9. split.
  - destruct (strip_prefix (text "vp09.") s) as [r|] eqn:E; [|discriminate]. apply strip_prefix_iff in E. subst s.
    destruct (parse_all (split dot r)) as [nums| | |] eqn:F; try discriminate. cbn [pbind]. apply parse_all_iff in F.
    intros H. exists r, (split dot r). split; [reflexivity|]. split; [apply dotted_split|]. exists nums. split; [exact F|].
    destruct nums as [|p [|l [|d [|c [|pr [|t [|m [|f [|]]]]]]]]]; try discriminate; injection H as <-; cbn.
    + left. repeat split.
    + right. exists f. split; [reflexivity|]. destruct (byte_eqb_spec f x01); split; congruence.
  - intros (r & parts & -> & D & nums & F & H). change (text "vp09.") with (ascii "vp09."). rewrite strip_prefix_app.
    assert (N := nums_nodot _ _ F). rewrite (split_dotted _ _ D N). apply parse_all_iff in F. rewrite F. cbn [pbind].
    destruct H as [(-> & Q1 & Q2 & Q3 & Q4 & Q5)|(f & -> & Q)]; destruct v; cbn in *; subst; [reflexivity|].
    f_equal. f_equal. destruct (byte_eqb_spec f x01) as [->|K]; destruct v9_full; intuition congruence.
Qed.
Lemma vp9_not_panics s : parse_vp9 s <> Panics.
Proof.
  unfold parse_vp9. destruct (strip_prefix (text "vp09.") s) as [r|]; [|discriminate].
  assert (N := parse_all_np (split dot r)). destruct (parse_all (split dot r)) as [nums| | |]; cbn [pbind]; try congruence.
  destruct nums as [|p [|l [|d [|c [|pr [|t [|m [|f [|]]]]]]]]]; discriminate.
Qed.
Lemma show_vp9_text v : vp9_text (show_vp9 v) v.
Proof.
  destruct v as [p l d c pr t m f]. unfold show_vp9. cbn [v9_profile v9_level v9_depth v9_chroma v9_primaries v9_transfer v9_matrix v9_full].
  match goal with |- context [if ?x then _ else _] => destruct x eqn:E end.
  - exists (show02 p ++ [dot] ++ show02 l ++ [dot] ++ show02 d), [show02 p; show02 l; show02 d].
    split; [rewrite app_nil_r; reflexivity|]. split; [do 2 apply dotted_cons; constructor|]. exists [p; l; d].
    split; [repeat constructor; apply show02_u8|]. left. cbn. split; [reflexivity|].
    rewrite !andb_true_iff, negb_true_iff in E. destruct E as ((((E1 & E2) & E3) & E4) & E5).
    apply Byte.byte_dec_bl in E1, E2, E3, E4. auto.
  - exists (show02 p ++ [dot] ++ show02 l ++ [dot] ++ show02 d ++ [dot] ++ show02 c ++ [dot] ++ show02 pr ++ [dot] ++ show02 t ++ [dot] ++ show02 m ++ [dot] ++ show02 (flag f)),
      [show02 p; show02 l; show02 d; show02 c; show02 pr; show02 t; show02 m; show02 (flag f)].
    split; [reflexivity|]. split; [do 7 apply dotted_cons; constructor|]. exists [p; l; d; c; pr; t; m; flag f].
    split; [repeat (constructor; [apply show02_u8|]); constructor|]. right. exists (flag f). cbn. split; [reflexivity|]. destruct f; cbn; split; congruence.
Qed.
Lemma vp9_roundtrip v : parse_vp9 (show_vp9 v) = Parsed v.
Proof. apply parse_vp9_iff, show_vp9_text. Qed.

(** ** AAC *)
Lemma parse_aac_iff s p : parse_aac s = Parsed p <-> aac_text s p.
Proof.
  unfold parse_aac, aac_text. split.
  - destruct (strip_prefix (text "mp4a.40.") s) as [r|] eqn:E; [|discriminate]. apply strip_prefix_iff in E. subst s.
    intros H. exists r. split; [reflexivity|]. apply parse_u8_iff; [lia|exact H].
  - intros (t & -> & H). change (text "mp4a.40.") with (ascii "mp4a.40."). rewrite strip_prefix_app. apply parse_u8_iff; [lia|exact H].
Qed.

(** ** H.265 *)
(** After an ASCII character comes another character. *)
Fixpoint no_stray (prev : bool) (s : bytes) : Prop :=
  match s with [] => True | b :: r => (prev = true -> cont b = false) /\ no_stray (n_of b <? 128)%N r end.
Lemma text_no_stray prev s : is_text s -> no_stray prev s.
Proof.
  intros [cs H]. revert prev. induction H as [|c cs p bs C _ IH]; intros prev; [exact I|].
  inversion C; subst; cbn [app no_stray]; unfold is_byte_of in *; change Byte.to_N with n_of in *;
    repeat match goal with |- _ /\ _ => split end; try (apply IH); intros Q; unfold cont, in_range; lia.
Qed.
Lemma no_stray_at prev pre b c post : no_stray prev (pre ++ b :: c :: post) -> (n_of b < 128)%N -> cont c = false.
Proof.
  revert prev. induction pre as [|a pre IH]; intros prev; cbn [app no_stray].
  - intros (_ & H & _) L. apply H. lia.
  - intros [_ H] L. exact (IH _ H L).
Qed.
Lemma dotted_infix ps s p : dotted ps s -> In p ps -> exists a b, s = a ++ p ++ b.
Proof.
  induction 1 as [q|q ps s _ IH].
  - intros [->|[]]. exists [], []. rewrite app_nil_r. reflexivity.
  - intros [->|H]; [exists [], (ascii "." ++ s); reflexivity|]. destruct (IH H) as (a & b & ->).
    exists (q ++ ascii "." ++ a), b. rewrite <- !app_assoc. reflexivity.
Qed.
Lemma slice_tail b t : (forall c r, t = c :: r -> cont c = false) -> slice (b :: t) 1 (length (b :: t)) = Parsed t.
Proof.
  intros H. unfold slice. assert (B1 : boundary (b :: t) 1 = true).
  { unfold boundary. cbn [Nat.eqb length nth_error orb]. destruct t as [|c r]; [reflexivity|]. cbn [length Nat.eqb nth_error orb].
    rewrite (H c r eq_refl). reflexivity. }
  assert (B2 : boundary (b :: t) (length (b :: t)) = true) by (unfold boundary; rewrite Nat.eqb_refl, orb_true_r; reflexivity).
  rewrite B1, B2. cbn [length Nat.leb andb skipn Nat.sub]. rewrite Nat.sub_0_r, firstn_all. reflexivity.
Qed.
Lemma constraints_np i ps fl : constraints_loop i ps fl <> Panics.
Proof.
  revert i fl. induction ps as [|p ps IH]; intros i fl; cbn [constraints_loop]; [discriminate|].
  destruct (Nat.leb 6 i); [discriminate|]. destruct (parse_u8_cases 16 p) as [[b E]|E]; rewrite E; cbn [pbind]; [apply IH|discriminate].
Qed.
Lemma upper_ascii b : upper b = true -> (n_of b < 128)%N.
Proof. unfold upper. lia. Qed.

Lemma h265_not_panics s : is_text s -> parse_h265 s <> Panics.
Proof.
  intros T. unfold parse_h265. assert (D := dotted_split s).
  assert (G : forall b t, In (b :: t) (split dot s) -> (n_of b < 128)%N -> slice (b :: t) 1 (length (b :: t)) = Parsed t).
  { intros b t Hin L. apply slice_tail. intros c r ->. destruct (dotted_infix _ _ _ D Hin) as (x & y & E).
    apply (no_stray_at true x b c (r ++ y)); [|exact L]. change (b :: c :: r ++ y) with ((b :: c :: r) ++ y). rewrite <- E.
    apply text_no_stray, T. }
  clear D T. destruct (split dot s) as [|p0 ps]; [discriminate|].
  match goal with |- context [if ?x then _ else _] => destruct x end; [discriminate|].
  destruct ps as [|profile ps]; [discriminate|]. destruct profile as [|b t]; [discriminate|].
  assert (P : exists digits, (if (0 <? (if upper b then 1 + n_of b - 65 else 0))%N then slice (b :: t) 1 (length (b :: t)) else @Parsed bytes (b :: t)) = Parsed digits).
  { destruct (upper b) eqn:U.
    - destruct (_ <? _)%N; [|eauto]. rewrite G; [eauto|right; left; reflexivity|apply upper_ascii, U].
    - change (0 <? 0)%N with false. eauto. }
  destruct P as [ds P]. cbv zeta. rewrite P. clear P. cbn [pbind]. destruct (parse_u8_cases 10 ds) as [[idc E]|E]; rewrite E; cbn [pbind]; [|discriminate].
  destruct ps as [|compat ps]; [discriminate|]. destruct (parse_uint 16 (2 ^ 32 - 1) compat) as [v|]; [|discriminate].
  destruct ps as [|level ps]; [discriminate|]. destruct level as [|tt lt]; [discriminate|].
  destruct (Byte.eqb tt x48 || Byte.eqb tt x4c) eqn:Et; [|discriminate].
  rewrite G; [|do 3 right; left; reflexivity|].
  2:{ apply orb_true_iff in Et. destruct Et as [Et|Et]; apply Byte.byte_dec_bl in Et; subst; reflexivity. }
  cbn [pbind]. destruct (parse_u8_cases 10 lt) as [[lvl E']|E']; rewrite E'; cbn [pbind]; [|discriminate].
  assert (N := constraints_np 0 ps (repeat x00 6)). destruct (constraints_loop 0 ps (repeat x00 6)); cbn [pbind]; congruence.
Qed.

(** The printed profile *)
Lemma space_small sp : (n_of sp <= 26)%N -> sp <> x00 ->
  exists b, show_space sp = [b] /\ upper b = true /\ (1 + n_of b - 65 = n_of sp)%N.
Proof. intros H N. destruct sp; try congruence; try (exfalso; vm_compute in H; congruence); eexists; (split; [vm_compute; reflexivity|split; reflexivity]). Qed.
Lemma space_big sp : (26 < n_of sp)%N ->
  exists b r, show_space sp = b :: r /\ upper b = false /\ Byte.eqb b x2b = false /\ digit 10 b = None.
Proof. intros H. destruct sp; try (exfalso; vm_compute in H; congruence); do 2 eexists; (split; [vm_compute; reflexivity|repeat split]). Qed.
Lemma space_nodot sp : ~ In dot (show_space sp).
Proof.
  assert (H : existsb (Byte.eqb dot) (show_space sp) = false) by (destruct sp; vm_compute; reflexivity).
  intros I. assert (K : existsb (Byte.eqb dot) (show_space sp) = true) by (apply existsb_exists; exists dot; split; [exact I|reflexivity]). congruence.
Qed.
Lemma show10_first b : exists d r, show10 b = d :: r /\ upper d = false /\ cont d = false.
Proof. destruct b; do 2 eexists; (split; [vm_compute; reflexivity|split; reflexivity]). Qed.

(** The printed flags *)
Definition mul (b : byte) : N := if (n_of b <? 16)%N then 16 else 256.
Lemma digits_showX a b : digits 16 a (showX b) = Some (a * mul b + n_of b)%N.
Proof.
  assert (E : showX b = if (n_of b <? 16)%N then [show_digit (n_of b)] else [show_digit (n_of b / 16); show_digit (n_of b mod 16)])
    by (destruct b; vm_compute; reflexivity).
  rewrite E. unfold mul. assert (B := n_of_lt b). destruct (N.ltb_spec (n_of b) 16); cbn [digits].
  - rewrite digit_show_digit by lia. reflexivity.
  - rewrite !digit_show_digit by lia. f_equal. lia.
Qed.
Lemma digits_cat a l : digits 16 a (List.concat (map showX l)) = Some (fold_left (fun a b => a * mul b + n_of b)%N l a).
Proof. revert a. induction l as [|b l IH]; intros a; cbn [map List.concat fold_left]; [reflexivity|]. rewrite digits_app, digits_showX. apply IH. Qed.
Lemma parse_cat l : l <> [] ->
  let v := fold_left (fun a b => a * mul b + n_of b)%N l 0%N in
  parse_uint 16 (2 ^ 32 - 1) (List.concat (map showX l)) = if (v <=? 2 ^ 32 - 1)%N then Some v else None.
Proof.
  intros NE v. assert (D := digits_cat 0 l). fold v in D. unfold parse_uint.
  assert (K : strip_sign x2b (List.concat (map showX l)) = List.concat (map showX l) /\ List.concat (map showX l) <> []).
  { destruct l as [|b l]; [congruence|]. cbn [map List.concat]. assert (E : exists d r, showX b = d :: r /\ Byte.eqb d x2b = false).
    { destruct b; do 2 eexists; (split; [vm_compute; reflexivity|reflexivity]). }
    destruct E as (d & r & -> & E). split; [|discriminate]. cbn [app]. destruct (r ++ _); cbn [strip_sign]; [reflexivity|rewrite E; reflexivity]. }
  destruct K as [-> K]. destruct (List.concat (map showX l)); [congruence|]. rewrite D. reflexivity.
Qed.

Lemma le4 v c0 c1 c2 c3 : (v < 2 ^ 32)%N ->
  le_bytes 4 v = [c0; c1; c2; c3] <-> (v = n_of c0 + 256 * n_of c1 + 65536 * n_of c2 + 16777216 * n_of c3)%N.
Proof.
  intros H. assert (B0 := n_of_lt c0). assert (B1 := n_of_lt c1). assert (B2 := n_of_lt c2). assert (B3 := n_of_lt c3).
  cbn [le_bytes]. split.
  - intros E. injection E as E0 E1 E2 E3. apply (f_equal n_of) in E0, E1, E2, E3. rewrite n_of_u8 in *. lia.
  - intros ->. repeat f_equal; apply n_of_inj; rewrite n_of_u8; lia.
Qed.

Lemma n_of_zero b : n_of b = 0%N <-> b = x00.
Proof. split; [intros H; apply n_of_inj; rewrite H; reflexivity|intros ->; reflexivity]. Qed.
Lemma at4_some c0 c1 c2 c3 : (exists i, at_ [c0; c1; c2; c3] i <> 0%N) <->
  (n_of c0 <> 0 \/ n_of c1 <> 0 \/ n_of c2 <> 0 \/ n_of c3 <> 0)%N.
Proof.
  unfold at_. change Byte.to_N with n_of. split.
  - intros [i H]. do 4 (destruct i as [|i]; [cbn in H; lia|]). exfalso. apply H. destruct i; reflexivity.
  - intros [H|[H|[H|H]]]; [exists 0|exists 1|exists 2|exists 3]; exact H.
Qed.
Lemma at4_full c0 c1 c2 c3 : (forall i j, i < j -> at_ [c0; c1; c2; c3] j <> 0%N -> (16 <= at_ [c0; c1; c2; c3] i)%N) <->
  ((n_of c3 <> 0 -> 16 <= n_of c0 /\ 16 <= n_of c1 /\ 16 <= n_of c2) /\
   (n_of c2 <> 0 -> 16 <= n_of c0 /\ 16 <= n_of c1) /\ (n_of c1 <> 0 -> 16 <= n_of c0))%N.
Proof.
  unfold at_. change Byte.to_N with n_of. split.
  - intros H. split; [intros K; conjs|split; [intros K; conjs|intros K]].
    + apply (H 0 3); [lia|exact K].
    + apply (H 1 3); [lia|exact K].
    + apply (H 2 3); [lia|exact K].
    + apply (H 0 2); [lia|exact K].
    + apply (H 1 2); [lia|exact K].
    + apply (H 0 1); [lia|exact K].
  - intros (H3 & H2 & H1) i j L K. do 4 (destruct j as [|j]; [do 3 (destruct i as [|i]; [cbn in *; lia|]); lia|]).
    exfalso. apply K. destruct j; reflexivity.
Qed.
Lemma compat_exact compat : length compat = 4 ->
  (exists v, parse_uint 16 (2 ^ 32 - 1) (List.concat (map showX (drop_zeros (rev compat)))) = Some v /\ le_bytes 4 v = compat) <->
  (exists i, at_ compat i <> 0%N) /\ (forall i j, i < j -> at_ compat j <> 0%N -> (16 <= at_ compat i)%N).
Proof.
  intros L. destruct compat as [|c0 [|c1 [|c2 [|c3 [|]]]]]; try discriminate. rewrite at4_some, at4_full.
  assert (B0 := n_of_lt c0). assert (B1 := n_of_lt c1). assert (B2 := n_of_lt c2). assert (B3 := n_of_lt c3).
  assert (G : forall l v, fold_left (fun a b => a * mul b + n_of b)%N l 0%N = v -> (v < 2 ^ 32)%N -> l <> [] ->
    (exists v, parse_uint 16 (2 ^ 32 - 1) (List.concat (map showX l)) = Some v /\ le_bytes 4 v = [c0; c1; c2; c3]) <->
    (v = n_of c0 + 256 * n_of c1 + 65536 * n_of c2 + 16777216 * n_of c3)%N).
  { intros l v E V NE. rewrite (parse_cat l NE), E. rewrite (proj2 (N.leb_le v (2 ^ 32 - 1))) by lia. split.
    - intros (v' & E' & Q). injection E' as <-. apply le4; assumption.
    - intros Q. exists v. split; [reflexivity|]. apply le4; assumption. }
  cbn [rev app drop_zeros].
  change (2 ^ 32)%N with 4294967296%N in G.
  destruct (byte_eqb_spec c3 x00) as [E3|E3]; rewrite <- n_of_zero in E3.
  2:{ rewrite (G [c3; c2; c1; c0] _ eq_refl); cbn [fold_left]; [| |discriminate]; unfold mul;
        destruct (N.ltb_spec (n_of c3) 16), (N.ltb_spec (n_of c2) 16), (N.ltb_spec (n_of c1) 16), (N.ltb_spec (n_of c0) 16); lia. }
  destruct (byte_eqb_spec c2 x00) as [E2|E2]; rewrite <- n_of_zero in E2.
  2:{ rewrite (G [c2; c1; c0] _ eq_refl); cbn [fold_left]; [| |discriminate]; unfold mul;
        destruct (N.ltb_spec (n_of c2) 16), (N.ltb_spec (n_of c1) 16), (N.ltb_spec (n_of c0) 16); lia. }
  destruct (byte_eqb_spec c1 x00) as [E1|E1]; rewrite <- n_of_zero in E1.
  2:{ rewrite (G [c1; c0] _ eq_refl); cbn [fold_left]; [| |discriminate]; unfold mul;
        destruct (N.ltb_spec (n_of c1) 16), (N.ltb_spec (n_of c0) 16); lia. }
  destruct (byte_eqb_spec c0 x00) as [E0|E0]; rewrite <- n_of_zero in E0.
  2:{ rewrite (G [c0] _ eq_refl); cbn [fold_left]; [| |discriminate]; unfold mul; destruct (N.ltb_spec (n_of c0) 16); lia. }
  cbn. split; [intros (v & H & _); discriminate|]. intros [H _]. lia.
Qed.

(** The printed constraints *)
Lemma drop_zeros_app l : exists n, l = repeat x00 n ++ drop_zeros l.
Proof.
  induction l as [|b l [n IH]]; [exists 0; reflexivity|]. cbn [drop_zeros]. destruct (byte_eqb_spec b x00) as [->|].
  - exists (S n). cbn. rewrite <- IH. reflexivity.
  - exists 0. reflexivity.
Qed.
Lemma rev_repeat {A} (a : A) n : rev (repeat a n) = repeat a n.
Proof.
  induction n as [|n IH]; [reflexivity|]. cbn. rewrite IH. change (repeat a n ++ [a]) with (repeat a n ++ repeat a 1).
  rewrite <- repeat_app. rewrite Nat.add_comm. reflexivity.
Qed.
Lemma trailing l : let k := length (drop_zeros (rev l)) in l = firstn k l ++ repeat x00 (length l - k).
Proof.
  cbv zeta. destruct (drop_zeros_app (rev l)) as [n E]. set (d := drop_zeros (rev l)) in *.
  assert (K : l = rev d ++ repeat x00 n).
  { rewrite <- (rev_involutive l), E, rev_app_distr, rev_repeat. reflexivity. }
  assert (L : length l = length d + n) by (rewrite K, app_length, rev_length, repeat_length; reflexivity).
  rewrite L. replace (length d + n - length d) with n by lia. rewrite K at 2.
  rewrite <- (rev_length d), firstn_len_app. exact K.
Qed.
Lemma loop_done i l : i + length l <= 6 -> forall pre, length pre = i ->
  constraints_loop i (map showX l) (pre ++ repeat x00 (6 - i)) = Parsed (pre ++ l ++ repeat x00 (6 - i - length l)).
Proof.
  revert i. induction l as [|b l IH]; intros i H pre P; cbn [map constraints_loop length].
  - rewrite Nat.sub_0_r. reflexivity.
  - cbn [length] in H. destruct (Nat.leb_spec 6 i); [lia|]. assert (E := showX_u8 b). apply parse_u8_iff in E; [|lia]. rewrite E. cbn [pbind].
    assert (U : forall m (p r : list byte) x, length p = m -> update m b (p ++ x :: r) = p ++ b :: r).
    { clear. induction m as [|m IHm]; intros [|y p] r x Q; cbn in *; try discriminate; [reflexivity|]. rewrite IHm by lia. reflexivity. }
    replace (6 - i) with (S (6 - S i)) by lia. cbn [repeat]. rewrite U by exact P.
    replace (pre ++ b :: repeat x00 (6 - S i)) with ((pre ++ [b]) ++ repeat x00 (6 - S i)) by (rewrite <- app_assoc; reflexivity).
    rewrite IH; [|lia|rewrite app_length; cbn; lia]. rewrite <- app_assoc. cbn [app]. replace (S (6 - S i) - S (length l)) with (6 - S i - length l) by lia. reflexivity.
Qed.

Lemma join_parts l : l <> [] -> Forall (fun p => ~ In dot p) l -> split dot (join dot l) = l.
Proof.
  induction l as [|p l IH]; [congruence|]. intros _ F. inversion_clear F as [|? ? F1 F2]. destruct l as [|q l]; [apply split_free, F1|].
  change (join dot (p :: q :: l)) with (p ++ dot :: join dot (q :: l)). rewrite split_app by exact F1. rewrite IH; [reflexivity|discriminate|exact F2].
Qed.

Lemma exists_nonzero l : (exists i, at_ l i <> 0%N) <-> drop_zeros (rev l) <> [].
Proof.
  unfold at_. change Byte.to_N with n_of. destruct (drop_zeros_app (rev l)) as [n E]. split.
  - intros [i H] D. rewrite D, app_nil_r in E. apply (f_equal (@rev _)) in E. rewrite rev_involutive, rev_repeat in E. subst l.
    apply H. apply n_of_zero. clear. revert i. induction n as [|n IH]; intros [|i]; cbn; auto.
  - intros D. assert (H : exists b r, drop_zeros (rev l) = b :: r /\ b <> x00).
    { clear E. induction (rev l) as [|b m IH]; [destruct (D eq_refl)|]. cbn [drop_zeros] in *. destruct (byte_eqb_spec b x00); [apply IH, D|eauto]. }
    destruct H as (b & r & H & NZ). rewrite H in E. apply (f_equal (@rev _)) in E.
    rewrite rev_involutive, rev_app_distr, rev_repeat in E. cbn [rev] in E. exists (length (rev r)). rewrite E.
    rewrite <- !app_assoc. rewrite app_nth2 by lia. rewrite Nat.sub_diag. cbn. rewrite n_of_zero. exact NZ.
Qed.

Definition h265_tail (h : h265) : bytes :=
  join dot (map showX (firstn (length (drop_zeros (rev (h5_constraints h)))) (h5_constraints h))).
Lemma split_show h : split dot (show_h265 h) =
  (if h5_in_band h then text "hev1" else text "hvc1") ::
  (show_space (h5_space h) ++ show10 (h5_idc h)) ::
  List.concat (map showX (drop_zeros (rev (h5_compat h)))) ::
  ((if h5_tier h then text "H" else text "L") ++ show10 (h5_level h)) ::
  split dot (h265_tail h).
Proof.
  unfold show_h265. cbv zeta. fold (h265_tail h). cbn [app].
  rewrite split_app by (destruct (h5_in_band h); cbn; intuition discriminate). f_equal.
  rewrite (app_assoc (show_space _)). rewrite split_app.
  2:{ rewrite in_app_iff. intros [H|H]; [apply space_nodot in H; exact H|]. revert H. apply (is_u8_dot 10 _ (h5_idc h)), show10_u8. }
  f_equal. rewrite split_app.
  2:{ intros H. apply in_concat in H. destruct H as (x & H & Q). apply in_map_iff in H. destruct H as (b & <- & _). revert Q.
      apply (is_u8_dot 16 _ b), showX_u8. }
  f_equal. rewrite app_assoc. rewrite split_app; [reflexivity|].
  rewrite in_app_iff. intros [H|H]; [destruct (h5_tier h); cbn in H; intuition discriminate|].
  revert H. apply (is_u8_dot 10 _ (h5_level h)), show10_u8.
Qed.
Lemma split_tail h : split dot (h265_tail h) =
  match drop_zeros (rev (h5_constraints h)) with
  | [] => [[]]
  | l => map showX (firstn (length l) (h5_constraints h))
  end.
Proof.
  unfold h265_tail. assert (T := trailing (h5_constraints h)). cbv zeta in T.
  destruct (drop_zeros (rev (h5_constraints h))) as [|b l] eqn:E; [reflexivity|]. apply join_parts.
  - destruct (h5_constraints h); [cbn in E; discriminate|]. cbn. discriminate.
  - apply Forall_forall. intros x H. apply in_map_iff in H. destruct H as (c & <- & _). apply (is_u8_dot 16 _ c), showX_u8.
Qed.

Lemma h265_exact h : h265_value h -> parse_h265 (show_h265 h) = Parsed h <-> h265_good h.
Proof.
  intros [L4 L6]. unfold parse_h265. rewrite split_show. cbv iota beta zeta.
  assert (E0 : str_eqb (if h5_in_band h then text "hev1" else text "hvc1") (text "hev1") = h5_in_band h) by (destruct (h5_in_band h); reflexivity).
  assert (E1 : negb (str_eqb (if h5_in_band h then text "hev1" else text "hvc1") (text "hev1") || str_eqb (if h5_in_band h then text "hev1" else text "hvc1") (text "hvc1")) = false)
    by (destruct (h5_in_band h); reflexivity).
  rewrite E1, E0. clear E0 E1.
  assert (U10 : forall b, parse_u8 10 (show10 b) = Parsed b) by (intros b; apply parse_u8_iff; [lia|apply show10_u8]).
  destruct (show10_first (h5_idc h)) as (d & r & Ed & Ud & Cd).
  unfold h265_good. change Byte.to_N with n_of. rewrite exists_nonzero with (l := h5_constraints h).
  pose proof (compat_exact (h5_compat h) L4) as CE.
  assert (P : (n_of (h5_space h) <= 26)%N -> forall (g : byte -> byte -> parsed h265),
    match show_space (h5_space h) ++ show10 (h5_idc h) with
    | [] => InvalidCodec
    | b :: _ =>
      pbind (if (0 <? (if upper b then 1 + n_of b - 65 else 0))%N
             then slice (show_space (h5_space h) ++ show10 (h5_idc h)) 1 (length (show_space (h5_space h) ++ show10 (h5_idc h)))
             else @Parsed bytes (show_space (h5_space h) ++ show10 (h5_idc h)))
        (fun digits => pbind (parse_u8 10 digits) (fun idc => g (u8 (if upper b then 1 + n_of b - 65 else 0)%N) idc))
    end = g (h5_space h) (h5_idc h)).
  { intros S26 g. destruct (byte_eqb_spec (h5_space h) x00) as [Z|Z].
    - rewrite Z. change (show_space x00) with (@nil byte). cbn [app]. rewrite Ed. rewrite Ud. change (0 <? 0)%N with false. cbn [pbind].
      rewrite <- Ed, U10. reflexivity.
    - destruct (space_small _ S26 Z) as (b & Eb & Ub & Nb). rewrite Eb. cbn [app]. rewrite Ub.
      rewrite (proj2 (N.ltb_lt 0 (1 + n_of b - 65))) by (rewrite Nb; rewrite <- n_of_zero in Z; lia).
      rewrite slice_tail by (rewrite Ed; intros c q Q; injection Q as <- _; exact Cd). cbn [pbind]. rewrite U10. cbn [pbind].
      rewrite Nb, u8_n_of. reflexivity. }
  destruct (N.le_gt_cases (n_of (h5_space h)) 26) as [S26|S26].
  2:{ destruct (space_big _ S26) as (b & q & Eb & Ub & Pb & Db). rewrite Eb. cbn [app]. rewrite Ub. change (0 <? 0)%N with false. cbn [pbind].
      assert (K : parse_u8 10 (b :: q ++ show10 (h5_idc h)) = BadNumber).
      { unfold parse_u8, parse_uint. rewrite Ed. destruct (q ++ d :: r) eqn:Eq; [destruct q; discriminate|]. cbn [strip_sign]. rewrite Pb. cbn [digits]. rewrite Db. reflexivity. }
      rewrite K. cbn [pbind]. split; [discriminate|]. intros [H _]. lia. }
  specialize (P S26).
  set (lev := (if h5_tier h then text "H" else text "L") ++ show10 (h5_level h)) in *.
  set (tl := split dot (h265_tail h)) in *.
  set (cp := List.concat (map showX (drop_zeros (rev (h5_compat h))))) in *.
  transitivity (match parse_uint 16 (2 ^ 32 - 1) cp with
                | None => BadNumber
                | Some v =>
                  match lev with
                  | [] => InvalidCodec
                  | t :: _ =>
                    if Byte.eqb t x48 || Byte.eqb t x4c then
                      pbind (slice lev 1 (length lev)) (fun digits =>
                      pbind (parse_u8 10 digits) (fun lvl =>
                      pbind (constraints_loop 0 tl (repeat x00 6)) (fun flags =>
                      Parsed {| h5_in_band := h5_in_band h; h5_space := h5_space h; h5_idc := h5_idc h;
                                h5_compat := le_bytes 4 v; h5_tier := Byte.eqb t x48; h5_level := lvl;
                                h5_constraints := flags |})))
                    else InvalidCodec
                  end
                end = Parsed h).
  { rewrite <- (P (fun sp idc => match parse_uint 16 (2 ^ 32 - 1) cp with
                | None => BadNumber
                | Some v =>
                  match lev with
                  | [] => InvalidCodec
                  | t :: _ =>
                    if Byte.eqb t x48 || Byte.eqb t x4c then
                      pbind (slice lev 1 (length lev)) (fun digits =>
                      pbind (parse_u8 10 digits) (fun lvl =>
                      pbind (constraints_loop 0 tl (repeat x00 6)) (fun flags =>
                      Parsed {| h5_in_band := h5_in_band h; h5_space := sp; h5_idc := idc;
                                h5_compat := le_bytes 4 v; h5_tier := Byte.eqb t x48; h5_level := lvl;
                                h5_constraints := flags |})))
                    else InvalidCodec
                  end
                end)). reflexivity. }
  assert (Q : exists t, lev = t :: show10 (h5_level h) /\ Byte.eqb t x48 || Byte.eqb t x4c = true /\ Byte.eqb t x48 = h5_tier h).
  { unfold lev. destruct (h5_tier h); eexists; (split; [reflexivity|split; reflexivity]). }
  destruct Q as (t & -> & Q1 & Q2). rewrite Q1, Q2.
  destruct (show10_first (h5_level h)) as (dl & rl & El & _ & Cl).
  rewrite slice_tail by (rewrite El; intros c q Q; injection Q as <- _; exact Cl). cbn [pbind]. rewrite U10. cbn [pbind].
  assert (T : drop_zeros (rev (h5_constraints h)) = [] /\ constraints_loop 0 tl (repeat x00 6) = BadNumber \/
              drop_zeros (rev (h5_constraints h)) <> [] /\ constraints_loop 0 tl (repeat x00 6) = Parsed (h5_constraints h)).
  { unfold tl. rewrite split_tail. assert (T := trailing (h5_constraints h)). cbv zeta in T.
    destruct (drop_zeros (rev (h5_constraints h))) as [|b0 l0]; [left; split; reflexivity|right]. split; [discriminate|].
    set (k := length (b0 :: l0)) in *. assert (Lk : length (firstn k (h5_constraints h)) <= 6) by (rewrite firstn_length; lia).
    assert (D := loop_done 0 (firstn k (h5_constraints h)) Lk [] eq_refl). cbn [app] in D.
    change (6 - 0) with 6 in D. rewrite D. f_equal. rewrite firstn_length, L6. rewrite L6 in T.
    etransitivity; [|symmetry; exact T]. f_equal. f_equal. lia. }
  destruct T as [[Z T]|[NZ T]]; rewrite T; cbn [pbind].
  - split; [|tauto]. destruct (parse_uint 16 (2 ^ 32 - 1) cp); discriminate.
  - split.
    + destruct (parse_uint 16 (2 ^ 32 - 1) cp) as [v|] eqn:Ev; [|discriminate]. intros H. split; [exact S26|].
      assert (Ec : le_bytes 4 v = h5_compat h) by (injection H as H; apply (f_equal h5_compat) in H; exact H).
      assert (C : (exists v0, Some v = Some v0 /\ le_bytes 4 v0 = h5_compat h)) by (exists v; auto).
      apply CE in C. destruct C. auto.
    + intros (_ & C1 & C2 & _). destruct (proj2 CE (conj C1 C2)) as (v & -> & Ec). rewrite Ec. destruct h; reflexivity.
Qed.
