(** The JSON reader accepts exactly the grammar. *)
From Coq Require Import NArith Arith List Lia Bool.
From Coq Require Import Init.Byte Strings.Byte.
From Verif.Model Require Import Base Map Text Codec Json.
From Verif.Spec Require Import CodingSpec JsonSpec.
From Verif.Proofs Require Import BaseP MapP TextP CodecAv1P.
Import ListNotations.
Open Scope N_scope.

Lemma beq_spec a b : reflect (a = b) (Byte.eqb a b).
Proof. destruct (Byte.eqb a b) eqn:E; constructor; [apply Byte.byte_dec_bl; exact E|]. intros ->. rewrite (Byte.byte_dec_lb eq_refl) in E. discriminate. Qed.
Lemma beq_refl a : Byte.eqb a a = true.
Proof. apply Byte.byte_dec_lb. reflexivity. Qed.

(** ** Space *)
Lemma is_ws_spec b : is_ws b = true <-> In b [x20; x09; x0a; x0d].
Proof.
  unfold is_ws. rewrite !orb_true_iff. cbn [In].
  destruct (beq_spec b x20), (beq_spec b x09), (beq_spec b x0a), (beq_spec b x0d); subst; intuition congruence.
Qed.
Lemma skip_spaces w : spaces w -> forall r, skip_ws (w ++ r) = skip_ws r.
Proof. induction 1 as [|b w H _ IH]; intros r; [reflexivity|]. cbn. apply is_ws_spec in H. rewrite H. apply IH. Qed.
Lemma skip_ws_split s : exists w, s = w ++ skip_ws s /\ spaces w.
Proof.
  induction s as [|b s (w & E & W)]; [exists []; split; [reflexivity|constructor]|]. cbn. destruct (is_ws b) eqn:B.
  - exists (b :: w). split; [cbn; congruence|]. constructor; [apply is_ws_spec; exact B|exact W].
  - exists []. split; [reflexivity|constructor].
Qed.
Lemma skip_ws_head b r : is_ws b = false -> skip_ws (b :: r) = b :: r.
Proof. intros H. cbn. rewrite H. reflexivity. Qed.
Lemma spaces_nil : spaces [].
Proof. constructor. Qed.

Lemma expect_spec p : forall s r, expect p s = Some r <-> s = p ++ r.
Proof.
  induction p as [|a p IH]; intros s r; cbn.
  - split; [intros [= <-]; reflexivity|intros ->; reflexivity].
  - destruct s as [|b s]; [split; discriminate|]. destruct (beq_spec a b) as [->|N].
    + rewrite IH. split; [intros ->; reflexivity|intros [= ->]; reflexivity].
    + split; [discriminate|]. intros [= -> _]. congruence.
Qed.
Lemma expect_app p r : expect p (p ++ r) = Some r.
Proof. apply expect_spec. reflexivity. Qed.

(** ** Numbers *)
Lemma is_digit_spec b : is_digit b = true <-> In b ["0"; "1"; "2"; "3"; "4"; "5"; "6"; "7"; "8"; "9"]%byte.
Proof. split; [|intros H; cbn in H; intuition (subst; reflexivity)]. destruct b; cbn; intuition discriminate. Qed.
Lemma numerals_spec d : numerals d <-> d <> [] /\ forallb is_digit d = true.
Proof.
  unfold numerals. rewrite forallb_forall, Forall_forall. split; intros [N H]; (split; [exact N|]); intros b I; apply is_digit_spec; auto.
Qed.
Lemma span_split p : forall s, let r := span p s in
  s = fst r ++ snd r /\ forallb p (fst r) = true /\ match snd r with b :: _ => p b = false | [] => True end.
Proof.
  induction s as [|b s IH]; cbn; [auto|]. destruct (p b) eqn:P.
  - destruct (span p s) as [x y]. cbn in *. rewrite P. destruct IH as (-> & H1 & H2). auto.
  - cbn. auto.
Qed.
Lemma span_app p d r : forallb p d = true -> match r with b :: _ => p b = false | [] => True end -> span p (d ++ r) = (d, r).
Proof.
  induction d as [|b d IH]; cbn; intros H R.
  - destruct r as [|b r]; cbn; [reflexivity|]. rewrite R. reflexivity.
  - apply andb_true_iff in H. destruct H as [H1 H2]. rewrite H1, (IH H2 R). reflexivity.
Qed.

(** A json_number does not go on. *)
Definition stops (r : bytes) : Prop := match r with [] => True | b :: _ => is_digit b = false /\ b <> dot /\ is_e b = false end.

Lemma read_exp_sound s e r : read_exp s = Some (e, r) -> s = e ++ r /\ exponent e.
Proof.
  unfold read_exp. destruct s as [|b s]; [intros [= <- <-]; split; [reflexivity|left; reflexivity]|].
  destruct (is_e b) eqn:B; [|intros [= <- <-]; split; [reflexivity|left; reflexivity]].
  assert (SG : exists g, In g [[]; ["-"]; ["+"]]%byte /\ s = g ++ snd (read_exp_sign s) /\ fst (read_exp_sign s) = g).
  { unfold read_exp_sign. destruct s as [|c s]; [exists []; cbn; auto|].
    destruct (beq_spec c minus) as [->|]; [exists ["-"%byte]; cbn; auto|].
    destruct (beq_spec c plus) as [->|]; [exists ["+"%byte]; cbn; auto|exists []; cbn; auto]. }
  destruct SG as (g & G & E1 & E2). destruct (read_exp_sign s) as [g' r1]. cbn in E1, E2. subst g' s.
  destruct (span_split is_digit r1) as (S1 & S2 & _). destruct (span is_digit r1) as [d r2]. cbn in S1, S2. subst r1.
  destruct d as [|x d]; [discriminate|]. intros [= <- <-]. split; [cbn; rewrite <- app_assoc; reflexivity|].
  right. exists b, g, (x :: d). split; [reflexivity|]. split; [|split; [exact G|]].
  - unfold is_e in B. cbn. destruct (beq_spec b x65); [auto|]. destruct (beq_spec b x45); [auto|discriminate].
  - apply numerals_spec. split; [discriminate|exact S2].
Qed.
Lemma read_exp_complete e r : exponent e -> stops r -> read_exp (e ++ r) = Some (e, r).
Proof.
  intros [->|(c & g & d & -> & C & G & D)] R.
  - cbn. unfold read_exp. destruct r as [|b r]; [reflexivity|]. destruct R as (_ & _ & ->). reflexivity.
  - cbn. assert (is_e c = true) as -> by (cbn in C; intuition (subst; reflexivity)).
    apply numerals_spec in D. destruct D as [D1 D2].
    assert (read_exp_sign ((g ++ d) ++ r) = (g, d ++ r)) as ->.
    { cbn in G. destruct G as [<-|[<-|[<-|[]]]]; [|reflexivity|reflexivity]. destruct d as [|x d]; [congruence|]. cbn.
      cbn in D2. apply andb_true_iff in D2. destruct D2 as [D2 _].
      destruct (beq_spec x minus) as [->|]; [discriminate|]. destruct (beq_spec x plus) as [->|]; [discriminate|]. reflexivity. }
    rewrite span_app; [|exact D2|destruct r; [exact I|apply R]]. destruct d; [congruence|]. reflexivity.
Qed.
Lemma exponent_stops e r : exponent e -> stops r -> match e ++ r with b :: _ => is_digit b = false /\ b <> dot | [] => True end.
Proof.
  intros [->|(c & g & d & -> & C & _)] R.
  - cbn. destruct r; [exact I|]. split; apply R.
  - cbn in *. intuition (subst; (reflexivity || discriminate)).
Qed.

Lemma read_frac_sound s f r : read_frac s = Some (f, r) -> s = f ++ r /\ fraction f.
Proof.
  unfold read_frac. destruct s as [|b s]; [intros [= <- <-]; split; [reflexivity|left; reflexivity]|].
  destruct (beq_spec b dot) as [->|_]; [|intros [= <- <-]; split; [reflexivity|left; reflexivity]].
  destruct (span_split is_digit s) as (S1 & S2 & _). destruct (span is_digit s) as [d r2]. cbn in S1, S2. subst s.
  destruct d as [|x d]; [discriminate|]. intros [= <- <-]. split; [reflexivity|]. right. exists (x :: d). split; [reflexivity|].
  apply numerals_spec. split; [discriminate|exact S2].
Qed.
Lemma read_frac_complete f r : fraction f -> match r with b :: _ => is_digit b = false /\ b <> dot | [] => True end ->
  read_frac (f ++ r) = Some (f, r).
Proof.
  intros [->|(d & -> & D)] R.
  - cbn. destruct r as [|b r]; [reflexivity|]. cbn. destruct (beq_spec b dot); [destruct R; congruence|reflexivity].
  - cbn. apply numerals_spec in D. destruct D as [D1 D2]. rewrite span_app; [|exact D2|destruct r; [exact I|apply R]].
    destruct d; [congruence|reflexivity].
Qed.
Lemma read_int_sound s i r : read_int s = Some (i, r) -> s = i ++ r /\ integer i.
Proof.
  unfold read_int. destruct s as [|b s]; [discriminate|]. destruct (beq_spec b zero) as [->|N].
  - intros [= <- <-]. split; [reflexivity|left; reflexivity].
  - destruct (is_digit b) eqn:B; [|discriminate]. destruct (span_split is_digit (b :: s)) as (S1 & S2 & _).
    destruct (span is_digit (b :: s)) as [d r2] eqn:E. cbn [fst snd] in *. intros [= <- <-]. split; [exact S1|]. right.
    destruct d as [|x d]; [cbn in E; rewrite B in E; destruct (span is_digit s); discriminate|].
    injection S1 as <- _. split; [apply numerals_spec; split; [discriminate|exact S2]|]. cbn. intros [= H]. apply N. exact H.
Qed.
Lemma read_int_complete i r : integer i -> match r with b :: _ => is_digit b = false | [] => True end -> read_int (i ++ r) = Some (i, r).
Proof.
  intros [->|[D H]] R; [reflexivity|]. apply numerals_spec in D. destruct D as [D1 D2]. destruct i as [|b i]; [congruence|].
  cbn [app read_int]. destruct (beq_spec b zero) as [->|_]; [destruct (H eq_refl)|].
  pose proof D2 as D3. cbn in D3. apply andb_true_iff in D3. destruct D3 as [-> _].
  change (b :: i ++ r) with ((b :: i) ++ r). rewrite span_app; [reflexivity|exact D2|exact R].
Qed.
Lemma read_number_sound s t r : read_number s = Some (t, r) -> s = t ++ r /\ json_number t.
Proof.
  unfold read_number. assert (SG : exists g, In g [[]; ["-"%byte]] /\ s = g ++ snd (read_sign s) /\ fst (read_sign s) = g).
  { unfold read_sign. destruct s as [|c s]; [exists []; cbn; auto|].
    destruct (beq_spec c minus) as [->|]; [exists ["-"%byte]; cbn; auto|exists []; cbn; auto]. }
  destruct SG as (g & G & E1 & E2). destruct (read_sign s) as [g' s1]. cbn in E1, E2. subst g' s.
  destruct (read_int s1) as [[i s2]|] eqn:I; [|discriminate]. apply read_int_sound in I. destruct I as [-> I].
  destruct (read_frac s2) as [[f s3]|] eqn:F; [|discriminate]. apply read_frac_sound in F. destruct F as [-> F].
  destruct (read_exp s3) as [[e s4]|] eqn:X; [|discriminate]. apply read_exp_sound in X. destruct X as [-> X].
  intros [= <- <-]. split; [rewrite <- !app_assoc; reflexivity|]. exists g, i, f, e. auto.
Qed.
Lemma number_head t : json_number t -> exists b r, t = b :: r /\ (b = minus \/ is_digit b = true).
Proof.
  intros (g & i & f & e & -> & G & I & _). cbn in G. destruct G as [<-|[<-|[]]].
  - cbn. destruct I as [->|[D _]]; [do 2 eexists; split; [reflexivity|right; reflexivity]|].
    apply numerals_spec in D. destruct D as [D1 D2]. destruct i as [|b i]; [congruence|]. cbn in *. apply andb_true_iff in D2.
    do 2 eexists. split; [reflexivity|right; apply D2].
  - do 2 eexists. split; [reflexivity|left; reflexivity].
Qed.
Lemma read_number_complete t r : json_number t -> stops r -> read_number (t ++ r) = Some (t, r).
Proof.
  intros (g & i & f & e & -> & G & I & F & X) R. unfold read_number.
  assert (IH : exists b i', i = b :: i' /\ b <> minus).
  { destruct I as [->|[D _]]; [do 2 eexists; split; [reflexivity|discriminate]|].
    apply numerals_spec in D. destruct D as [D1 D2]. destruct i as [|b i]; [congruence|]. cbn in *. apply andb_true_iff in D2.
    do 2 eexists. split; [reflexivity|]. intros ->. destruct D2. discriminate. }
  assert (read_sign ((g ++ i ++ f ++ e) ++ r) = (g, i ++ f ++ e ++ r)) as ->.
  { cbn in G. destruct G as [<-|[<-|[]]].
    - destruct IH as (b & i' & -> & N). cbn. destruct (beq_spec b minus); [congruence|]. rewrite <- !app_assoc. reflexivity.
    - cbn. rewrite <- !app_assoc. reflexivity. }
  pose proof (exponent_stops e r X R) as XS.
  assert (FS : match f ++ e ++ r with b :: _ => is_digit b = false | [] => True end).
  { destruct F as [->|(d & -> & _)]; [|reflexivity]. cbn. destruct (e ++ r); [exact Logic.I|apply XS]. }
  rewrite (read_int_complete i _ I FS), (read_frac_complete f _ F XS), (read_exp_complete e r X R). reflexivity.
Qed.

(** ** Strings *)
Lemma hexdigit_spec h n : digit 16 h = Some n <-> hexdigit h n.
Proof.
  unfold digit, hexdigit. pose proof (n_of_lt h) as L.
  destruct (N.leb_spec 48 (n_of h)), (N.leb_spec (n_of h) 57), (N.leb_spec 97 (n_of h)), (N.leb_spec (n_of h) 122),
    (N.leb_spec 65 (n_of h)), (N.leb_spec (n_of h) 90); cbn [andb]; try lia;
    try (match goal with |- context [if ?x <? ?y then _ else _] => destruct (N.ltb_spec x y) end);
    split; try discriminate; try (intros [= <-]; lia); intros Q; try (exfalso; lia); f_equal; lia.
Qed.
Lemma is_hex_spec h : is_hex h = true <-> exists n, hexdigit h n.
Proof.
  unfold is_hex. destruct (digit 16 h) as [n|] eqn:E.
  - split; [intros _; exists n; apply hexdigit_spec; exact E|reflexivity].
  - split; [discriminate|]. intros (n & H). apply hexdigit_spec in H. congruence.
Qed.
Lemma code_spec h1 h2 h3 h4 c : code [h1; h2; h3; h4] c <->
  (is_hex h1 && is_hex h2 && is_hex h3 && is_hex h4 = true /\ c = hex4 h1 h2 h3 h4).
Proof.
  unfold code, hex4. split.
  - intros (? & ? & ? & ? & a & b & d & e & [= <- <- <- <-] & A & B & D & E & ->). apply hexdigit_spec in A, B, D, E.
    unfold is_hex. rewrite A, B, D, E. split; [reflexivity|lia].
  - intros [H ->]. rewrite !andb_true_iff, !is_hex_spec in H. destruct H as [[[(a & A) (b & B)] (d & D)] (e & E)].
    exists h1, h2, h3, h4, a, b, d, e. split; [reflexivity|]. split; [exact A|]. split; [exact B|]. split; [exact D|]. split; [exact E|].
    apply hexdigit_spec in A, B, D, E. rewrite A, B, D, E. lia.
Qed.
Lemma code_four h c : code h c -> exists h1 h2 h3 h4, h = [h1; h2; h3; h4].
Proof. intros (h1 & h2 & h3 & h4 & H). exists h1, h2, h3, h4. decompose [ex and] H. assumption. Qed.
Lemma escape_spec e c : simple_escape e = Some c <-> In (e, c) short_escapes.
Proof.
  split.
  - unfold simple_escape, short_escapes. cbn [In].
    repeat match goal with |- context [Byte.eqb e ?x] => destruct (beq_spec e x) as [->|?]; [intros [= <-]; auto 12|] end. discriminate.
  - intros H. cbn in H. repeat (destruct H as [H|H]; [injection H as <- <-; reflexivity|]). destruct H.
Qed.
Lemma escape_not_u e c : In (e, c) short_escapes -> Byte.eqb e x75 = false.
Proof. intros H. cbn in H. repeat (destruct H as [H|H]; [injection H as <- _; reflexivity|]). destruct H. Qed.
Lemma is_plain_spec b : is_plain b = true <-> 32 <= n_of b /\ b <> quote /\ b <> backslash.
Proof.
  unfold is_plain. rewrite !andb_true_iff, !negb_true_iff, N.leb_le. destruct (beq_spec b quote), (beq_spec b backslash); intuition congruence.
Qed.

Lemma read_raw_sound n : forall s t r, (length s <= n)%nat -> read_raw s = Some (t, r) -> s = t ++ quote :: r /\ spelling t.
Proof.
  induction n as [|n IH]; intros s t r L H.
  - destruct s; [discriminate|cbn in L; lia].
  - destruct s as [|b s]; [discriminate|]. cbn [read_raw] in H. cbn [length] in L. destruct (beq_spec b quote) as [->|Q].
    { injection H as <- <-. split; [reflexivity|constructor]. }
    destruct (beq_spec b backslash) as [->|B].
    + destruct s as [|e r1]; [discriminate|]. destruct (beq_spec e x75) as [->|U].
      * destruct r1 as [|h1 [|h2 [|h3 [|h4 r2]]]]; try discriminate.
        destruct (is_hex h1 && is_hex h2 && is_hex h3 && is_hex h4) eqn:HX; [|discriminate].
        destruct (read_raw r2) as [[a x]|] eqn:R; [|discriminate]. injection H as <- <-. apply IH in R; [|cbn in L; lia].
        destruct R as [-> R]. split; [reflexivity|]. change (spelling ("\"%byte :: "u"%byte :: [h1; h2; h3; h4] ++ a)).
        apply (ch_code _ (hex4 h1 h2 h3 h4)); [apply code_spec; auto|exact R].
      * destruct (simple_escape e) as [c|] eqn:S; [|discriminate]. destruct (read_raw r1) as [[a x]|] eqn:R; [|discriminate].
        injection H as <- <-. apply IH in R; [|cbn in L; lia]. destruct R as [-> R]. split; [reflexivity|].
        apply (ch_short _ c); [apply escape_spec; exact S|exact R].
    + destruct (is_plain b) eqn:P; [|discriminate]. destruct (read_raw s) as [[a x]|] eqn:R; [|discriminate].
      injection H as <- <-. apply IH in R; [|lia]. destruct R as [-> R]. split; [reflexivity|].
      apply is_plain_spec in P. apply ch_plain; tauto || exact R.
Qed.
Lemma read_raw_complete t r : spelling t -> read_raw (t ++ quote :: r) = Some (t, r).
Proof.
  induction 1 as [|b t P Q B _ IH|e c t S _ IH|h c t C _ IH].
  - reflexivity.
  - cbn [app read_raw]. destruct (beq_spec b quote); [contradiction|]. destruct (beq_spec b backslash); [contradiction|].
    rewrite (proj2 (is_plain_spec b)) by auto. rewrite IH. reflexivity.
  - cbn [app read_raw]. change (Byte.eqb "\" quote) with false. change (Byte.eqb "\" backslash) with true. cbn iota.
    rewrite (escape_not_u _ _ S), (proj2 (escape_spec e c) S), IH. reflexivity.
  - destruct (code_four _ _ C) as (h1 & h2 & h3 & h4 & ->). apply code_spec in C. destruct C as [C _]. cbn [app read_raw].
    change (Byte.eqb "\" quote) with false. change (Byte.eqb "\" backslash) with true. cbn iota.
    change (Byte.eqb "u" x75) with true. cbn iota. rewrite C, IH. reflexivity.
Qed.

(** ** Values *)
Scheme spells_mut := Induction for spells Sort Prop
  with elements_mut := Induction for elements Sort Prop
  with members_mut := Induction for members Sort Prop.
Combined Scheme json_mut from spells_mut, elements_mut, members_mut.

Lemma byte_num b : b = minus \/ is_digit b = true -> is_ws b = false /\ b <> rbrack /\ b <> rbrace /\
  Byte.eqb b x6e = false /\ Byte.eqb b x74 = false /\ Byte.eqb b x66 = false /\ Byte.eqb b quote = false /\
  Byte.eqb b lbrack = false /\ Byte.eqb b lbrace = false.
Proof. intros [->|H]; [repeat split; discriminate|]. apply is_digit_spec in H. cbn in H. intuition (subst; (reflexivity || discriminate)). Qed.

Lemma spells_head v t : spells v t -> exists b r, t = b :: r /\ is_ws b = false /\ b <> rbrack.
Proof.
  intros H. inversion H; subst; try (do 2 eexists; split; [reflexivity|split; [reflexivity|discriminate]]).
  destruct (number_head t H0) as (b & r & -> & B). apply byte_num in B. exists b, r. tauto.
Qed.

Lemma sound n :
  (forall s v r, read_value n s = Some (v, r) -> exists w t, s = w ++ t ++ r /\ spaces w /\ spells v t) /\
  (forall s l r, read_elements n s = Some (l, r) -> exists t, s = t ++ rbrack :: r /\ elements l t) /\
  (forall s l r, read_members n s = Some (l, r) -> exists t, s = t ++ rbrace :: r /\ members l t).
Proof.
  induction n as [|n (IV & IE & IM)]; [repeat split; discriminate|]. repeat split.
  - intros s v r H. cbn [read_value] in H. destruct (skip_ws_split s) as (w & E & W). destruct (skip_ws s) as [|b s1]; [discriminate|].
    rewrite E. exists w. clear E s.
    assert (A : forall (x : json) p q, after x (expect p s1) = Some (v, r) -> q = b :: p -> spells x q -> exists t, w ++ b :: s1 = w ++ t ++ r /\ spaces w /\ spells v t).
    { intros x p q X -> S. destruct (expect p s1) as [y|] eqn:Y; [|discriminate]. apply expect_spec in Y. injection X as <- <-. subst s1.
      exists (b :: p). auto. }
    destruct (beq_spec b x6e) as [->|_]; [exact (A _ _ _ H eq_refl sp_null)|].
    destruct (beq_spec b x74) as [->|_]; [exact (A _ _ _ H eq_refl sp_true)|].
    destruct (beq_spec b x66) as [->|_]; [exact (A _ _ _ H eq_refl sp_false)|]. clear A.
    destruct (beq_spec b quote) as [->|_].
    { destruct (read_raw s1) as [[t r']|] eqn:R; [|discriminate]. injection H as <- <-. apply (read_raw_sound (length s1)) in R; [|lia].
      destruct R as [-> R]. exists ([quote] ++ t ++ [quote]). split; [|split; [exact W|exact (sp_str t R)]]. cbn. rewrite <- !app_assoc. reflexivity. }
    destruct (beq_spec b lbrack) as [->|_].
    { destruct (expect [rbrack] (skip_ws s1)) as [y|] eqn:Y.
      - apply expect_spec in Y. injection H as <- <-. destruct (skip_ws_split s1) as (w2 & E2 & W2). rewrite Y in E2. subst s1.
        exists ([lbrack] ++ w2 ++ [rbrack]). split; [|split; [exact W|exact (sp_arr0 w2 W2)]]. cbn. rewrite <- !app_assoc. reflexivity.
      - destruct (read_elements n s1) as [[l r']|] eqn:R; [|discriminate]. injection H as <- <-. apply IE in R. destruct R as (t & -> & R).
        exists ([lbrack] ++ t ++ [rbrack]). split; [|split; [exact W|exact (sp_arr l t R)]]. cbn. rewrite <- !app_assoc. reflexivity. }
    destruct (beq_spec b lbrace) as [->|_].
    { destruct (expect [rbrace] (skip_ws s1)) as [y|] eqn:Y.
      - apply expect_spec in Y. injection H as <- <-. destruct (skip_ws_split s1) as (w2 & E2 & W2). rewrite Y in E2. subst s1.
        exists ([lbrace] ++ w2 ++ [rbrace]). split; [|split; [exact W|exact (sp_obj0 w2 W2)]]. cbn. rewrite <- !app_assoc. reflexivity.
      - destruct (read_members n s1) as [[l r']|] eqn:R; [|discriminate]. injection H as <- <-. apply IM in R. destruct R as (t & -> & R).
        exists ([lbrace] ++ t ++ [rbrace]). split; [|split; [exact W|exact (sp_obj l t R)]]. cbn. rewrite <- !app_assoc. reflexivity. }
    destruct (read_number (b :: s1)) as [[t r']|] eqn:R; [|discriminate]. injection H as <- <-. apply read_number_sound in R.
    destruct R as [-> R]. exists t. split; [reflexivity|]. split; [exact W|exact (sp_num t R)].
  - intros s l r H. cbn [read_elements] in H. destruct (read_value n s) as [[v s1]|] eqn:R; [|discriminate]. apply IV in R.
    destruct R as (w & t & -> & W & S). destruct (skip_ws_split s1) as (w2 & E2 & W2).
    destruct (expect [comma] (skip_ws s1)) as [y|] eqn:Y.
    + apply expect_spec in Y. rewrite Y in E2. destruct (read_elements n y) as [[l' r']|] eqn:R; [|discriminate]. injection H as <- <-.
      apply IE in R. destruct R as (t' & -> & R). exists (w ++ t ++ w2 ++ [","%byte] ++ t'). split; [|exact (el_more v l' w t w2 t' W S W2 R)].
      rewrite E2. rewrite <- !app_assoc. reflexivity.
    + destruct (expect [rbrack] (skip_ws s1)) as [y|] eqn:Z; [|discriminate]. apply expect_spec in Z. rewrite Z in E2. injection H as <- <-.
      exists (w ++ t ++ w2). split; [|exact (el_one v w t w2 W S W2)]. rewrite E2. rewrite <- !app_assoc. reflexivity.
  - intros s l r H. cbn [read_members] in H. destruct (skip_ws_split s) as (w1 & E1 & W1).
    destruct (expect [quote] (skip_ws s)) as [x|] eqn:X; [|discriminate]. apply expect_spec in X. rewrite X in E1. clear X.
    destruct (read_raw x) as [[k r1]|] eqn:K; [|discriminate]. apply (read_raw_sound (length x)) in K; [|lia]. destruct K as [-> K].
    destruct (skip_ws_split r1) as (w2 & E2 & W2). destruct (expect [colon] (skip_ws r1)) as [r2|] eqn:X; [|discriminate].
    apply expect_spec in X. rewrite X in E2. clear X. destruct (read_value n r2) as [[v r3]|] eqn:R; [|discriminate]. apply IV in R.
    destruct R as (w & t & -> & W & S). destruct (skip_ws_split r3) as (w3 & E3 & W3).
    destruct (expect [comma] (skip_ws r3)) as [y|] eqn:Y.
    + apply expect_spec in Y. rewrite Y in E3. destruct (read_members n y) as [[l' r']|] eqn:R; [|discriminate]. injection H as <- <-.
      apply IM in R. destruct R as (t' & -> & R). eexists. split; [|exact (mb_more k v l' w1 w2 w t w3 t' W1 K W2 W S W3 R)].
      rewrite E1, E2, E3. rewrite <- !app_assoc. reflexivity.
    + destruct (expect [rbrace] (skip_ws r3)) as [y|] eqn:Z; [|discriminate]. apply expect_spec in Z. rewrite Z in E3. injection H as <- <-.
      eexists. split; [|exact (mb_one k v w1 w2 w t w3 W1 K W2 W S W3)]. rewrite E1, E2, E3. rewrite <- !app_assoc. reflexivity.
Qed.

Lemma stops_ws w b r : spaces w -> In b [comma; rbrack; rbrace] -> stops (w ++ b :: r).
Proof.
  intros W B. destruct W as [|c w C W].
  - cbn in *. intuition (subst; (reflexivity || discriminate)).
  - cbn in *. intuition (subst; (reflexivity || discriminate)).
Qed.
Lemma stops_spaces w : spaces w -> stops w.
Proof. intros W. destruct W as [|c w C W]; [exact I|]. cbn in *. intuition (subst; (reflexivity || discriminate)). Qed.
Lemma not_expect a b r : a <> b -> expect [a] (b :: r) = None.
Proof. intros N. cbn. destruct (beq_spec a b); [contradiction|reflexivity]. Qed.

Lemma complete :
  (forall v t, spells v t -> forall n w r, (2 * length t <= n)%nat -> spaces w -> stops r -> read_value n (w ++ t ++ r) = Some (v, r)) /\
  (forall l t, elements l t -> forall n r, (2 * length t + 1 <= n)%nat ->
     (exists b x, skip_ws (t ++ rbrack :: r) = b :: x /\ b <> rbrack) /\ read_elements n (t ++ rbrack :: r) = Some (l, r)) /\
  (forall l t, members l t -> forall n r, (2 * length t + 1 <= n)%nat ->
     (exists b x, skip_ws (t ++ rbrace :: r) = b :: x /\ b <> rbrace) /\ read_members n (t ++ rbrace :: r) = Some (l, r)).
Proof.
  apply json_mut.
  - intros [|n] w r L W _; [cbn in L; lia|]. cbn [read_value]. rewrite (skip_spaces w W). reflexivity.
  - intros [|n] w r L W _; [cbn in L; lia|]. cbn [read_value]. rewrite (skip_spaces w W). reflexivity.
  - intros [|n] w r L W _; [cbn in L; lia|]. cbn [read_value]. rewrite (skip_spaces w W). reflexivity.
  - intros t N n w r L W S. destruct (number_head t N) as (b & x & -> & B). destruct n as [|n]; [cbn in L; lia|].
    cbn [read_value]. rewrite (skip_spaces w W). pose proof (read_number_complete (b :: x) r N S) as R. cbn [app] in *.
    apply byte_num in B. destruct B as (B & _ & _ & E1 & E2 & E3 & E4 & E5 & E6). rewrite skip_ws_head by exact B. rewrite E1, E2, E3, E4, E5, E6, R. reflexivity.
  - intros raw C n w r L W _. destruct n as [|n]; [cbn in L; lia|]. cbn [read_value]. rewrite (skip_spaces w W). cbn [app].
    rewrite skip_ws_head by reflexivity. cbn -[read_raw]. rewrite <- app_assoc. change (read_raw (raw ++ [""""%byte] ++ r)) with (read_raw (raw ++ quote :: r)).
    rewrite (read_raw_complete raw r C). reflexivity.
  - intros w0 W0 n w r L W _. destruct n as [|n]; [cbn in L; lia|]. cbn [read_value]. rewrite (skip_spaces w W). cbn [app].
    rewrite skip_ws_head by reflexivity. cbn -[expect skip_ws]. rewrite <- app_assoc. rewrite (skip_spaces w0 W0). reflexivity.
  - intros l t E IH n w r L W _. destruct n as [|n]; [cbn in L; lia|]. cbn [read_value]. rewrite (skip_spaces w W). cbn [app].
    rewrite skip_ws_head by reflexivity. cbn -[expect skip_ws read_elements]. rewrite <- app_assoc. change (t ++ ["]"%byte] ++ r) with (t ++ rbrack :: r).
    cbn [length app] in L. rewrite app_length in L. cbn [length] in L.
    destruct (IH n r ltac:(lia)) as [(b & x & -> & NB) ->]. rewrite not_expect by congruence. reflexivity.
  - intros w0 W0 n w r L W _. destruct n as [|n]; [cbn in L; lia|]. cbn [read_value]. rewrite (skip_spaces w W). cbn [app].
    rewrite skip_ws_head by reflexivity. cbn -[expect skip_ws]. rewrite <- app_assoc. rewrite (skip_spaces w0 W0). reflexivity.
  - intros l t E IH n w r L W _. destruct n as [|n]; [cbn in L; lia|]. cbn [read_value]. rewrite (skip_spaces w W). cbn [app].
    rewrite skip_ws_head by reflexivity. cbn -[expect skip_ws read_members]. rewrite <- app_assoc. change (t ++ ["}"%byte] ++ r) with (t ++ rbrace :: r).
    cbn [length app] in L. rewrite app_length in L. cbn [length] in L.
    destruct (IH n r ltac:(lia)) as [(b & x & -> & NB) ->]. rewrite not_expect by congruence. reflexivity.
  - intros v w t w' W S IH W' n r L. rewrite <- !app_assoc. rewrite !app_length in L. split.
    + rewrite (skip_spaces w W). destruct (spells_head v t S) as (b & x & -> & B & NB). exists b. eexists. split; [apply skip_ws_head; exact B|exact NB].
    + destruct n as [|n]; [lia|]. cbn [read_elements]. rewrite IH; [|lia|exact W|apply stops_ws; [exact W'|cbn; auto]].
      rewrite (skip_spaces w' W'), skip_ws_head by reflexivity. rewrite not_expect by discriminate. cbn. reflexivity.
  - intros v l w t w' r0 W S IH W' E IE n r L. rewrite <- !app_assoc. rewrite !app_length in L. cbn [length] in L. split.
    + rewrite (skip_spaces w W). destruct (spells_head v t S) as (b & x & -> & B & NB). exists b. eexists. split; [apply skip_ws_head; exact B|exact NB].
    + destruct n as [|n]; [lia|]. cbn [read_elements]. rewrite IH; [|lia|exact W|apply stops_ws; [exact W'|cbn; auto]].
      rewrite (skip_spaces w' W'). cbn [app]. rewrite skip_ws_head by reflexivity. cbn -[read_elements].
      destruct (IE n r ltac:(lia)) as [_ ->]. reflexivity.
  - intros k v w1 w2 w t w' W1 K W2 W S IH W' n r L. rewrite <- !app_assoc. rewrite !app_length in L. cbn [length] in L. split.
    + rewrite (skip_spaces w1 W1). cbn [app]. rewrite skip_ws_head by reflexivity. do 2 eexists. split; [reflexivity|discriminate].
    + destruct n as [|n]; [lia|]. cbn [read_members]. rewrite (skip_spaces w1 W1). cbn [app]. rewrite skip_ws_head by reflexivity.
      cbn -[read_raw read_value skip_ws]. rewrite (read_raw_complete k _ K). rewrite (skip_spaces w2 W2), skip_ws_head by reflexivity.
      cbn -[read_value skip_ws]. rewrite IH; [|lia|exact W|apply stops_ws; [exact W'|cbn; auto]].
      rewrite (skip_spaces w' W'), skip_ws_head by reflexivity. cbn. reflexivity.
  - intros k v l w1 w2 w t w' r0 W1 K W2 W S IH W' E IE n r L. rewrite <- !app_assoc. rewrite !app_length in L. cbn [length] in L. split.
    + rewrite (skip_spaces w1 W1). cbn [app]. rewrite skip_ws_head by reflexivity. do 2 eexists. split; [reflexivity|discriminate].
    + destruct n as [|n]; [lia|]. cbn [read_members]. rewrite (skip_spaces w1 W1). cbn [app]. rewrite skip_ws_head by reflexivity.
      cbn -[read_raw read_value read_members skip_ws]. rewrite (read_raw_complete k _ K). rewrite (skip_spaces w2 W2), skip_ws_head by reflexivity.
      cbn -[read_value read_members skip_ws]. rewrite IH; [|lia|exact W|apply stops_ws; [exact W'|cbn; auto]].
      rewrite (skip_spaces w' W'), skip_ws_head by reflexivity. cbn -[read_members]. destruct (IE n r ltac:(lia)) as [_ ->]. reflexivity.
Qed.

Theorem read_json_exact s v : read_json s = Some v <-> document v s.
Proof.
  unfold read_json, document. split.
  - destruct (read_value (2 * length s + 2) s) as [[v' r]|] eqn:R; [|discriminate]. apply sound in R. destruct R as (w & t & E & W & S).
    destruct (skip_ws_split r) as (w' & E' & W'). destruct (skip_ws r); [|discriminate]. intros [= <-]. rewrite app_nil_r in E'. subst r.
    exists w, t, w'. auto.
  - intros (w & t & w' & -> & W & S & W'). rewrite (proj1 complete v t S); [|rewrite !app_length; lia|exact W|exact (stops_spaces w' W')].
    pose proof (skip_spaces w' W' []) as E. rewrite app_nil_r in E. rewrite E. reflexivity.
Qed.

(** ** The text of a string *)
Lemma utf8_char_utf8 c p : utf8_char c p <-> p = utf8 c /\ scalar c.
Proof.
  split; [apply utf8_char_is|]. intros [-> S]. unfold utf8, scalar in *.
  destruct (N.ltb_spec c 128); [constructor; [lia|]; unfold is_byte_of; change Byte.to_N with n_of; apply n_of_small; lia|].
  destruct (N.ltb_spec c 2048).
  { constructor; try lia; unfold is_byte_of; change Byte.to_N with n_of; apply n_of_small; lia. }
  destruct (N.ltb_spec c 65536).
  { constructor; try lia; unfold is_byte_of, scalar; change Byte.to_N with n_of; try (apply n_of_small; lia). exact S. }
  constructor; try lia; unfold is_byte_of; change Byte.to_N with n_of; apply n_of_small; lia.
Qed.
Lemma hex4_lt h1 h2 h3 h4 : hex4 h1 h2 h3 h4 < 65536.
Proof.
  assert (D : forall h, (match digit 16 h with Some n => n | None => 0 end) < 16).
  { intros h. destruct (digit 16 h) as [n|] eqn:E; [|lia]. apply hexdigit_spec in E. unfold hexdigit in E. lia. }
  unfold hex4. pose proof (D h1). pose proof (D h2). pose proof (D h3). pose proof (D h4). lia.
Qed.

(** The escapes of a spelling are those of the grammar. *)
Lemma inside_code h1 h2 h3 h4 r : spelling (backslash :: x75 :: h1 :: h2 :: h3 :: h4 :: r) ->
  is_hex h1 && is_hex h2 && is_hex h3 && is_hex h4 = true /\ spelling r.
Proof.
  intros H. inversion H as [|b r0 A B C D|e c r0 A B|h c r0 A B]; subst.
  - destruct (C eq_refl).
  - apply escape_not_u in A. discriminate A.
  - destruct (code_four _ _ A) as (a1 & a2 & a3 & a4 & ->).
    match goal with E : _ = _ |- _ => cbn [app] in E; injection E as <- <- <- <- <- end. apply code_spec in A. tauto.
Qed.
Lemma inside_short e r : spelling (backslash :: e :: r) -> e <> x75 -> spelling r.
Proof.
  intros H N. inversion H as [|b r0 A B C D|e' c r0 A B|h c r0 A B]; subst; [destruct (C eq_refl)|assumption|congruence].
Qed.
Lemma inside_plain b r : spelling (b :: r) -> b <> backslash -> spelling r.
Proof. intros H N. inversion H; subst; [assumption|destruct (N eq_refl)|destruct (N eq_refl)]. Qed.

Lemma Some_inj {A} (a b : A) : Some a = Some b -> a = b.
Proof. intros [= H]. exact H. Qed.
Lemma unescape_sound n : forall s t, (length s <= n)%nat -> spelling s -> unescape s = Some t -> means s t.
Proof.
  induction n as [|n IH]; intros s t L IN H.
  - destruct s; [injection H as <-; constructor|cbn in L; lia].
  - destruct s as [|b s]; [injection H as <-; constructor|]. cbn [unescape] in H. cbn [length] in L.
    destruct (beq_spec b backslash) as [->|B].
    2:{ destruct (unescape s) as [a|] eqn:U; [|discriminate]. injection H as <-. cbn. constructor; [exact B|].
        apply IH; [lia|exact (inside_plain _ _ IN B)|exact U]. }
    destruct s as [|e r1]; [discriminate|]. destruct (beq_spec e x75) as [->|NU].
    2:{ destruct (simple_escape e) as [c|] eqn:S; [|discriminate]. destruct (unescape r1) as [a|] eqn:U; [|discriminate].
        injection H as <-. cbn. apply mn_short; [apply escape_spec; exact S|].
        apply IH; [cbn in L; lia|exact (inside_short _ _ IN NU)|exact U]. }
    destruct r1 as [|h1 [|h2 [|h3 [|h4 r2]]]]; try discriminate. apply inside_code in IN. destruct IN as [HX IN]. cbv zeta in H.
    pose proof (hex4_lt h1 h2 h3 h4) as LT.
    assert (CD : code [h1; h2; h3; h4] (hex4 h1 h2 h3 h4)) by (apply code_spec; auto).
    generalize dependent (hex4 h1 h2 h3 h4). intros c H LT CD. clear HX.
    destruct ((0xDC00 <=? c) && (c <=? 0xDFFF)) eqn:LO; [discriminate|]. apply andb_false_iff in LO. rewrite !N.leb_gt in LO.
    destruct ((0xD800 <=? c) && (c <=? 0xDBFF)) eqn:HI.
    + apply andb_true_iff in HI. rewrite !N.leb_le in HI.
      destruct r2 as [|b' [|e' [|g1 [|g2 [|g3 [|g4 r3]]]]]]; try discriminate.
      destruct (beq_spec b' backslash) as [->|]; [|discriminate]. destruct (beq_spec e' x75) as [->|]; [|discriminate]. cbn [andb] in H.
      apply inside_code in IN. destruct IN as [GX IN].
      assert (CG : code [g1; g2; g3; g4] (hex4 g1 g2 g3 g4)) by (apply code_spec; auto).
      generalize dependent (hex4 g1 g2 g3 g4). intros d H CG. clear GX.
      destruct ((0xDC00 <=? d) && (d <=? 0xDFFF)) eqn:LG; [|discriminate]. apply andb_true_iff in LG. rewrite !N.leb_le in LG.
      destruct (unescape r3) as [a|] eqn:U; [|discriminate].
      cbn [put] in H. apply Some_inj in H. subst t. apply (mn_pair [h1; h2; h3; h4] c [g1; g2; g3; g4] d _ r3 a CD).
      * lia.
      * exact CG.
      * lia.
      * replace (0x10000 + (c - 0xD800) * 0x400 + (d - 0xDC00)) with ((c - 0xD800) * 0x400 + (d - 0xDC00) + 0x10000) by lia.
        apply utf8_char_utf8. split; [reflexivity|]. unfold scalar. lia.
      * apply IH; [cbn in L; lia|exact IN|exact U].
    + apply andb_false_iff in HI. rewrite !N.leb_gt in HI.
      destruct (unescape r2) as [a|] eqn:U; [|discriminate]. cbn [put] in H. apply Some_inj in H. subst t.
      apply (mn_code [h1; h2; h3; h4] c _ r2 a CD).
      * apply utf8_char_utf8. split; [reflexivity|]. unfold scalar. lia.
      * apply IH; [cbn in L; lia|exact IN|exact U].
Qed.
Lemma unescape_complete s t : means s t -> unescape s = Some t.
Proof.
  induction 1 as [|b r s N _ IH|e c r s S _ IH|h c p r s C U _ IH|h c g d p r s C HC G HG U _ IH].
  - reflexivity.
  - cbn [unescape]. destruct (beq_spec b backslash); [contradiction|]. rewrite IH. reflexivity.
  - cbn [unescape]. change (Byte.eqb "\" backslash) with true. cbn iota. rewrite (escape_not_u _ _ S), (proj2 (escape_spec e c) S), IH. reflexivity.
  - destruct (code_four _ _ C) as (h1 & h2 & h3 & h4 & ->). apply code_spec in C. destruct C as [_ ->].
    apply utf8_char_utf8 in U. destruct U as [-> U]. cbn [app unescape]. change (Byte.eqb "\" backslash) with true.
    change (Byte.eqb "u" x75) with true. cbn iota zeta. revert U. generalize (hex4 h1 h2 h3 h4). intros c U. unfold scalar in U.
    destruct (N.leb_spec 0xDC00 c), (N.leb_spec c 0xDFFF), (N.leb_spec 0xD800 c), (N.leb_spec c 0xDBFF); cbn [andb]; try lia; rewrite IH; reflexivity.
  - destruct (code_four _ _ C) as (h1 & h2 & h3 & h4 & ->). apply code_spec in C. destruct C as [_ ->].
    destruct (code_four _ _ G) as (g1 & g2 & g3 & g4 & ->). apply code_spec in G. destruct G as [_ ->].
    apply utf8_char_utf8 in U. destruct U as [-> U]. cbn [app unescape]. change (Byte.eqb "\" backslash) with true.
    change (Byte.eqb "u" x75) with true. cbn iota zeta. cbn [andb].
    revert HC HG U. generalize (hex4 h1 h2 h3 h4) (hex4 g1 g2 g3 g4). intros c d HC HG U.
    destruct (N.leb_spec 0xDC00 c), (N.leb_spec c 0xDFFF), (N.leb_spec 0xD800 c), (N.leb_spec c 0xDBFF); cbn [andb]; try lia.
    destruct (N.leb_spec 0xDC00 d), (N.leb_spec d 0xDFFF); cbn [andb]; try lia. rewrite IH. cbn [put].
    replace (0x10000 + (c - 0xD800) * 0x400 + (d - 0xDC00)) with ((c - 0xD800) * 0x400 + (d - 0xDC00) + 0x10000) by lia. reflexivity.
Qed.
Theorem string_of_exact raw s : spelling raw -> string_of raw = Some s <-> text_of raw s.
Proof.
  intros IN. unfold string_of, text_of. split.
  - destruct (unescape raw) as [t|] eqn:U; [|discriminate]. destruct (utf8_valid t) eqn:V; [|discriminate]. intros [= <-].
    split; [apply (unescape_sound (length raw)); auto|apply utf8_valid_iff; exact V].
  - intros [M T]. rewrite (unescape_complete _ _ M). apply utf8_valid_iff in T. rewrite T. reflexivity.
Qed.
Lemma string_of_complete raw s : text_of raw s -> string_of raw = Some s.
Proof. intros [M T]. unfold string_of. rewrite (unescape_complete _ _ M). apply utf8_valid_iff in T. rewrite T. reflexivity. Qed.

(** ** Printing *)
Lemma escape_byte_inside b r : spelling r -> spelling (escape_byte b ++ r).
Proof.
  intros H. assert (P : is_plain b = true -> escape_byte b = [b] -> spelling (escape_byte b ++ r)).
  { intros P ->. apply is_plain_spec in P. cbn. apply ch_plain; tauto. }
  destruct b; first [apply P; reflexivity|clear P]; match goal with |- context [escape_byte ?x] => let e := eval vm_compute in (escape_byte x) in change (escape_byte x) with e end; cbn [app];
    first [refine (ch_short _ _ _ _ H); apply escape_spec; reflexivity
          |lazymatch goal with |- spelling (_ :: _ :: ?h1 :: ?h2 :: ?h3 :: ?h4 :: r) => refine (ch_code [h1; h2; h3; h4] _ r _ H); apply code_spec; split; reflexivity end].
Qed.
Lemma escape_inside s : spelling (escape s).
Proof. induction s as [|b s IH]; cbn; [constructor|apply escape_byte_inside; exact IH]. Qed.
Lemma escape_byte_means b r s : means r s -> means (escape_byte b ++ r) (b :: s).
Proof.
  intros H. assert (P : is_plain b = true -> escape_byte b = [b] -> means (escape_byte b ++ r) (b :: s)).
  { intros P ->. apply is_plain_spec in P. cbn. apply mn_plain; tauto. }
  destruct b; first [apply P; reflexivity|clear P]; match goal with |- context [escape_byte ?x] => let e := eval vm_compute in (escape_byte x) in change (escape_byte x) with e end; cbn [app];
    first [refine (mn_short _ _ _ _ _ H); apply escape_spec; reflexivity
          |lazymatch goal with |- means (_ :: _ :: ?h1 :: ?h2 :: ?h3 :: ?h4 :: r) (?x :: s) =>
             refine (mn_code [h1; h2; h3; h4] (hex4 h1 h2 h3 h4) [x] r s _ _ H);
             [apply code_spec; split; reflexivity|apply utf8_char_utf8; split; [reflexivity|left; reflexivity]] end].
Qed.
Lemma escape_text s : is_text s -> text_of (escape s) s.
Proof. intros T. split; [|exact T]. clear T. induction s as [|b s IH]; cbn; [constructor|apply escape_byte_means; exact IH]. Qed.

Fixpoint json_rect' (P : json -> Prop) (Hn : P JNull) (Hb : forall b, P (JBool b)) (Hm : forall t, P (JNum t)) (Hs : forall r, P (JStr r))
  (Ha : forall l, Forall P l -> P (JArr l)) (Ho : forall l, Forall (fun m => P (snd m)) l -> P (JObj l)) (v : json) : P v :=
  let F := json_rect' P Hn Hb Hm Hs Ha Ho in
  match v with
  | JNull => Hn | JBool b => Hb b | JNum t => Hm t | JStr r => Hs r
  | JArr l => Ha l ((fix go l := match l return Forall P l with [] => Forall_nil _ | x :: r => Forall_cons x (F x) (go r) end) l)
  | JObj l => Ho l ((fix go l := match l return Forall (fun m => P (snd m)) l with [] => Forall_nil _ | x :: r => Forall_cons x (F (snd x)) (go r) end) l)
  end.

Lemma print_spells v : wf v -> spells v (print v).
Proof.
  induction v as [|b|t|r|l IH|l IH] using json_rect'; intros W; inversion W as [|?|? N|? C|? F|? F]; subst.
  - constructor.
  - destruct b; constructor.
  - constructor; assumption.
  - apply sp_str; assumption.
  - cbn [print]. destruct l as [|v l]; [exact (sp_arr0 [] spaces_nil)|]. apply sp_arr.
    assert (K : Forall (fun v => spells v (print v)) (v :: l)) by (rewrite Forall_forall in *; auto). clear - K.
    revert v K. induction l as [|u l IH]; intros v K; inversion K as [|? ? K1 K2]; subst.
    + pose proof (el_one v [] (print v) [] spaces_nil K1 spaces_nil) as H. cbn [app] in H. rewrite app_nil_r in H. exact H.
    + exact (el_more v (u :: l) [] (print v) [] _ spaces_nil K1 spaces_nil (IH u K2)).
  - cbn [print]. destruct l as [|m l]; [exact (sp_obj0 [] spaces_nil)|]. apply sp_obj.
    assert (K : Forall (fun m => spelling (fst m) /\ spells (snd m) (print (snd m))) (m :: l)).
    { rewrite Forall_forall in *. intros x I. destruct (F x I). split; auto. }
    clear - K. revert m K. induction l as [|u l IH]; intros [k v] K; inversion K as [|? ? [K1 K3] K2]; subst; cbn [fst snd] in K1, K3.
    + pose proof (mb_one k v [] [] [] (print v) [] spaces_nil K1 spaces_nil spaces_nil K3 spaces_nil) as H.
      cbn [app] in H. rewrite app_nil_r in H. exact H.
    + pose proof (mb_more k v (u :: l) [] [] [] (print v) [] _ spaces_nil K1 spaces_nil spaces_nil K3 spaces_nil (IH u K2)) as H.
      cbn [app] in H. cbn [map sep fst snd]. cbn [app]. rewrite <- app_assoc. exact H.
Qed.
Lemma document_print v : wf v -> document v (print v).
Proof. intros W. exists [], (print v), []. split; [rewrite app_nil_r; reflexivity|]. split; [constructor|]. split; [apply print_spells; exact W|constructor]. Qed.

(** What is read is well spelled. *)
Lemma read_wf : (forall v t, spells v t -> wf v) /\ (forall l t, elements l t -> Forall wf l) /\
  (forall l t, members l t -> Forall (fun m => spelling (fst m) /\ wf (snd m)) l).
Proof. apply json_mut; intros; try (constructor; auto; fail). Qed.

(** ** Integers *)
Lemma is_digit_digit b : is_digit b = true -> digit 10 b = Some (n_of b - 48) /\ 48 <= n_of b <= 57.
Proof.
  unfold is_digit, digit. intros H. rewrite H. apply andb_true_iff in H. rewrite !N.leb_le in H.
  destruct (N.ltb_spec (n_of b - 48) 10); [auto|lia].
Qed.
Lemma decimal_spec t : forall acc, forallb is_digit t = true -> Text.digits 10 acc t = Some (decimal t acc).
Proof.
  induction t as [|b t IH]; intros acc H; cbn in *; [reflexivity|]. apply andb_true_iff in H. destruct H as [H1 H2].
  apply is_digit_digit in H1. destruct H1 as [-> _]. apply IH. exact H2.
Qed.
Lemma uint_of_exact max t n : uint_of max t = Some n <-> counts t n /\ n <= max.
Proof.
  unfold uint_of, counts. rewrite numerals_spec. destruct (forallb is_digit t) eqn:D.
  - rewrite parse_uint_some. split.
    + intros (L & u & NE & [->| ->] & V); [|cbn in D; discriminate]. rewrite (decimal_spec u 0 D) in V. apply Some_inj in V. subst n. auto.
    + intros (((NE & _) & ->) & L). split; [exact L|]. exists t. split; [exact NE|]. split; [auto|]. apply decimal_spec. exact D.
  - split; [discriminate|]. intros (((_ & H) & _) & _). discriminate.
Qed.
Lemma show_digits n : forallb is_digit (show 10 n) = true /\ (show 10 n <> []) /\ decimal (show 10 n) 0 = n /\ integer (show 10 n).
Proof.
  destruct (show_spec 10 n) as (ds & E & F & V & NE & Z & O); [lia|].
  assert (D : forallb is_digit (show 10 n) = true).
  { rewrite E. clear - F. induction F as [|d ds H _ IH]; [reflexivity|]. cbn. rewrite IH, andb_true_r. unfold show_digit, is_digit.
    destruct (N.ltb_spec d 10); [|lia]. rewrite n_of_small by lia. apply andb_true_iff. rewrite !N.leb_le. lia. }
  assert (NN : show 10 n <> []) by (rewrite E; destruct ds; [congruence|discriminate]).
  assert (DC : decimal (show 10 n) 0 = n).
  { pose proof (decimal_spec _ 0 D) as H. rewrite E in H at 1. rewrite digits_show in H; [|lia|exact F].
    apply Some_inj in H. rewrite <- H. exact V. }
  repeat split; auto. destruct (N.eq_dec n 0) as [->|NZ]; [left; reflexivity|]. right. split; [apply numerals_spec; auto|].
  rewrite E. specialize (Z NZ). destruct ds as [|d ds]; [congruence|]. cbn in *. intros [= H]. apply Z.
  inversion F as [|? ? L _]; subst. apply (f_equal n_of) in H. unfold show_digit in H. destruct (N.ltb_spec d 10); [|lia].
  rewrite n_of_small in H by lia. change (n_of "0"%byte) with 48 in H. lia.
Qed.
Lemma show_number n : json_number (show 10 n).
Proof.
  exists [], (show 10 n), [], []. rewrite !app_nil_r. split; [reflexivity|]. split; [left; reflexivity|].
  split; [apply show_digits|]. split; left; reflexivity.
Qed.
Lemma show_counts n : counts (show 10 n) n.
Proof. destruct (show_digits n) as (A & B & C & _). split; [apply numerals_spec; auto|congruence]. Qed.
