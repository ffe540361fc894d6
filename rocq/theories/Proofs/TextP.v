(** Facts about the string functions of Model/Text.v. *)
From Coq Require Import NArith ZArith List Bool Lia.
From Coq Require Import Init.Byte Strings.Byte.
From Verif.Model Require Import Base Map Text.
From Verif.Proofs Require Import BaseP MapP.
Import ListNotations.
Open Scope nat_scope.

Lemma byte_eqb_spec (a b : byte) : reflect (a = b) (Byte.eqb a b).
Proof. destruct (Byte.eqb a b) eqn:E; constructor; [apply Byte.byte_dec_bl, E|intros ->; rewrite Byte.byte_dec_lb in E; [discriminate|reflexivity]]. Qed.
Lemma byte_eqb_refl (a : byte) : Byte.eqb a a = true.
Proof. destruct (byte_eqb_spec a a); congruence. Qed.

(** ** trim_start *)
Lemma trim_start_split c s : exists n, s = repeat c n ++ trim_start c s.
Proof.
  induction s as [|b s [n IH]]; [exists 0; reflexivity|]. cbn. destruct (byte_eqb_spec b c) as [->|].
  - exists (S n). cbn. f_equal. exact IH.
  - exists 0. reflexivity.
Qed.
Lemma trim_start_hd c s r : trim_start c s <> c :: r.
Proof. induction s as [|b s IH]; cbn; [discriminate|]. destruct (byte_eqb_spec b c); [exact IH|congruence]. Qed.
Lemma trim_start_unique c n p : (forall r, p <> c :: r) -> trim_start c (repeat c n ++ p) = p.
Proof.
  intros H. induction n as [|n IH]; cbn.
  - destruct p as [|b p]; [reflexivity|]. cbn. destruct (byte_eqb_spec b c) as [->|]; [destruct (H p eq_refl)|reflexivity].
  - rewrite byte_eqb_refl. exact IH.
Qed.

(** ** rsplit_once *)
Lemma rsplit_none c s : rsplit_once c s = None <-> ~ In c s.
Proof.
  induction s as [|b s IH]; cbn; [intuition|]. destruct (rsplit_once c s) as [[x y]|].
  - split; [discriminate|]. intros H. destruct IH as [_ IH]. assert (~ In c s) by tauto. discriminate (IH H0).
  - assert (~ In c s) by (apply IH; reflexivity). destruct (byte_eqb_spec b c) as [->|]; intuition (try discriminate); congruence.
Qed.
Lemma cons_app_inv {A} (b c : A) s x y : b :: s = x ++ c :: y -> (x = [] /\ b = c /\ s = y) \/ (exists x', x = b :: x' /\ s = x' ++ c :: y).
Proof. destruct x as [|a x]; cbn; intros H; [left|right; exists x]; split; try split; congruence. Qed.
Lemma rsplit_some c s x y : rsplit_once c s = Some (x, y) <-> s = x ++ c :: y /\ ~ In c y.
Proof.
  split.
  - revert x y. induction s as [|b s IH]; intros x y; cbn; [discriminate|]. destruct (rsplit_once c s) as [[u v]|] eqn:E.
    + intros Q. injection Q as <- <-. destruct (IH u v eq_refl) as [-> H]. split; [reflexivity|exact H].
    + apply rsplit_none in E. destruct (byte_eqb_spec b c) as [->|]; [|discriminate]. intros Q. injection Q as <- <-. split; [reflexivity|exact E].
  - intros [-> N]. induction x as [|b x IH]; cbn; [|rewrite IH; reflexivity].
    rewrite (proj2 (rsplit_none c y) N), byte_eqb_refl. reflexivity.
Qed.

(** ** split_once *)
Lemma split_once_none c s : split_once c s = None <-> ~ In c s.
Proof.
  induction s as [|b s IH]; cbn; [intuition|]. destruct (byte_eqb_spec b c) as [->|Hb]; [intuition discriminate|].
  destruct (split_once c s) as [[x y]|].
  - split; [discriminate|]. intros H. assert (~ In c s) by tauto. destruct IH as [_ IH]. discriminate (IH H0).
  - assert (~ In c s) by (apply IH; reflexivity). intuition congruence.
Qed.
Lemma split_once_some c s x y : split_once c s = Some (x, y) <-> s = x ++ c :: y /\ ~ In c x.
Proof.
  split.
  - revert x y. induction s as [|b s IH]; intros x y; cbn; [discriminate|]. destruct (byte_eqb_spec b c) as [->|Hb].
    + intros Q. injection Q as <- <-. split; [reflexivity|intros []].
    + destruct (split_once c s) as [[u v]|] eqn:E; [|discriminate]. intros Q. injection Q as <- <-.
      destruct (IH u v eq_refl) as [-> H]. split; [reflexivity|]. cbn. intuition congruence.
  - intros [-> N]. induction x as [|b x IH]; cbn; [rewrite byte_eqb_refl; reflexivity|].
    destruct (byte_eqb_spec b c); [destruct N; left; congruence|]. rewrite IH; [reflexivity|]. intros h. apply N. right. exact h.
Qed.

(** ** strip_suffix *)
Lemma strip_suffix_some suf s x : strip_suffix suf s = Some x <-> s = x ++ suf.
Proof.
  unfold strip_suffix. destruct (str_eqb_spec (skipn (length s - length suf) s) suf) as [E|E].
  - split; intros H.
    + injection H as <-. rewrite <- E at 2. rewrite firstn_skipn. reflexivity.
    + subst. rewrite app_length, Nat.add_sub, firstn_app, Nat.sub_diag, firstn_all, app_nil_r. reflexivity.
  - split; [discriminate|]. intros ->. destruct E.
    rewrite app_length, Nat.add_sub, skipn_app, Nat.sub_diag, skipn_all. reflexivity.
Qed.
Lemma strip_suffix_none suf s : strip_suffix suf s = None <-> forall x, s <> x ++ suf.
Proof.
  split.
  - intros H x E. apply strip_suffix_some in E. congruence.
  - intros H. destruct (strip_suffix suf s) eqn:E; [|reflexivity]. apply strip_suffix_some in E. destruct (H _ E).
Qed.

(** ** split and join *)
Lemma split_ne c s : split c s <> [].
Proof. destruct s as [|b s]; cbn; [discriminate|]. destruct (Byte.eqb b c); [discriminate|]. destruct (split c s); discriminate. Qed.
Lemma split_free c s : ~ In c s -> split c s = [s].
Proof.
  induction s as [|b s IH]; [reflexivity|]. cbn. intros H. destruct (byte_eqb_spec b c); [intuition|].
  rewrite IH by tauto. reflexivity.
Qed.
Lemma split_app c x y : ~ In c x -> split c (x ++ c :: y) = x :: split c y.
Proof.
  induction x as [|b x IH]; cbn; intros H.
  - rewrite byte_eqb_refl. reflexivity.
  - destruct (byte_eqb_spec b c); [intuition|]. rewrite IH by tauto. reflexivity.
Qed.
Lemma join_split c s : join c (split c s) = s.
Proof.
  induction s as [|b s IH]; [reflexivity|]. cbn. assert (H := split_ne c s). destruct (split c s) as [|x l] eqn:E; [destruct H; reflexivity|].
  destruct (byte_eqb_spec b c) as [->|].
  - change ([] ++ c :: join c (x :: l) = c :: s). rewrite IH. reflexivity.
  - destruct l; cbn in IH |- *; rewrite <- IH; reflexivity.
Qed.
Lemma join_app c l x : l <> [] -> join c (l ++ [x]) = join c l ++ c :: x.
Proof.
  induction l as [|y l IH]; [congruence|]. intros _. destruct l as [|z l]; [reflexivity|].
  change (y ++ c :: join c ((z :: l) ++ [x]) = (y ++ c :: join c (z :: l)) ++ c :: x). rewrite IH by discriminate.
  rewrite <- app_assoc. reflexivity.
Qed.
Lemma split_no c s x : In x (split c s) -> ~ In c x.
Proof.
  revert x. induction s as [|b s IH]; cbn; intros x.
  - intros [<-|[]] [].
  - destruct (byte_eqb_spec b c) as [->|Hb].
    + intros [<-|H]; [intros []|apply IH, H].
    + destruct (split c s) as [|y l]; cbn.
      * intros [<-|[]]. cbn. intuition.
      * intros [<-|H]; [|apply IH; right; exact H]. cbn. intros [->|Q]; [congruence|]. exact (IH y (or_introl eq_refl) Q).
Qed.

(** ** Numbers *)
Lemma digits_app radix a s t : digits radix a (s ++ t) = match digits radix a s with Some v => digits radix v t | None => None end.
Proof. revert a. induction s as [|b s IH]; intros a; cbn; [reflexivity|]. destruct (digit radix b); [apply IH|reflexivity]. Qed.

Lemma n_of_small n : (n < 256)%N -> n_of (u8 n) = n.
Proof. intros H. rewrite BaseP.n_of_u8. apply N.mod_small, H. Qed.

Lemma digit_show_digit radix d : (d < radix)%N -> (radix <= 36)%N -> digit radix (show_digit d) = Some d.
Proof.
  intros H R. unfold digit, show_digit. destruct (N.ltb_spec d 10) as [L|L].
  - rewrite n_of_small by lia. replace ((48 <=? d + 48) && (d + 48 <=? 57))%N with true
      by (symmetry; apply andb_true_iff; split; apply N.leb_le; lia).
    rewrite N.add_sub. rewrite (proj2 (N.ltb_lt _ _) H). reflexivity.
  - rewrite n_of_small by lia.
    replace ((48 <=? d + 55) && (d + 55 <=? 57))%N with false
      by (symmetry; apply andb_false_iff; right; apply N.leb_gt; lia).
    replace ((97 <=? d + 55) && (d + 55 <=? 122))%N with false
      by (symmetry; apply andb_false_iff; left; apply N.leb_gt; lia).
    replace ((65 <=? d + 55) && (d + 55 <=? 90))%N with true
      by (symmetry; apply andb_true_iff; split; apply N.leb_le; lia).
    rewrite N.add_sub. rewrite (proj2 (N.ltb_lt _ _) H). reflexivity.
Qed.

(** The value of a list of digits. *)
Definition value_of (radix : N) (ds : list N) : N := fold_left (fun a d => a * radix + d)%N ds 0%N.

Lemma digits_show radix a ds : (radix <= 36)%N -> Forall (fun d => d < radix)%N ds ->
  digits radix a (map show_digit ds) = Some (fold_left (fun a d => a * radix + d)%N ds a).
Proof.
  intros R H. revert a. induction H as [|d ds Hd _ IH]; intros a; [reflexivity|]. cbn.
  rewrite digit_show_digit by assumption. apply IH.
Qed.

Lemma show_loop_spec radix fuel n acc : (2 <= radix)%N -> (n < radix ^ N.of_nat fuel)%N ->
  exists ds, show_loop radix fuel n acc = map show_digit ds ++ acc /\ Forall (fun d => d < radix)%N ds /\
             value_of radix ds = n /\ (fuel <> 0 -> ds <> []) /\ (n <> 0%N -> hd 0%N ds <> 0%N) /\ ((n < radix)%N -> fuel <> 0 -> ds = [n]).
Proof.
  intros R. revert n acc. induction fuel as [|fuel IH]; intros n acc H.
  - cbn in H. exists []. split; [reflexivity|]. split; [constructor|]. split; [cbn; lia|]. split; [congruence|]. split; [lia|congruence].
  - cbn [show_loop]. destruct (N.ltb_spec n radix) as [L|L].
    + exists [n]. rewrite N.mod_small by exact L. repeat split; cbn; try discriminate.
      constructor; [exact L|constructor]. congruence.
    + destruct (IH (n / radix)%N (show_digit (n mod radix) :: acc)) as (ds & E & F & V & NE & Z & _).
      { apply N.div_lt_upper_bound; [lia|]. rewrite <- N.pow_succ_r'. rewrite <- Nat2N.inj_succ. exact H. }
      exists (ds ++ [n mod radix]%N). rewrite E, map_app, <- app_assoc. split; [reflexivity|].
      assert (G : (n / radix <> 0)%N). { intros G. apply N.div_small_iff in G; lia. }
      split; [|split; [|split; [|split]]].
      * apply Forall_app. split; [exact F|]. constructor; [apply N.mod_lt; lia|constructor].
      * unfold value_of in *. rewrite fold_left_app, V. cbn. rewrite (N.div_mod n radix) at 3 by lia. lia.
      * intros _. destruct ds; discriminate.
      * intros _. specialize (Z G). destruct ds; [cbn in Z; congruence|exact Z].
      * intros Q. lia.
Qed.

Lemma show_spec radix n : (2 <= radix)%N -> exists ds, show radix n = map show_digit ds /\ Forall (fun d => d < radix)%N ds /\
  value_of radix ds = n /\ ds <> [] /\ (n <> 0%N -> hd 0%N ds <> 0%N) /\ (n < radix -> ds = [n])%N.
Proof.
  intros R. destruct (show_loop_spec radix (S (N.to_nat (N.log2 n))) n [] R) as (ds & E & F & V & NE & Z & O).
  - rewrite Nat2N.inj_succ, N2Nat.id. destruct n as [|p]; [change (N.log2 0) with 0%N; rewrite N.pow_1_r; lia|].
    eapply N.lt_le_trans; [apply N.log2_spec; lia|]. apply N.pow_le_mono_l. exact R.
  - exists ds. rewrite app_nil_r in E. repeat split; auto.
Qed.

Lemma show_digit_not d c : (d < 36)%N -> (n_of c < 48)%N -> show_digit d <> c.
Proof.
  intros H Q E. apply (f_equal n_of) in E. unfold show_digit in E. destruct (N.ltb_spec d 10); rewrite n_of_small in E; lia.
Qed.

Lemma strip_sign_spec c s : (strip_sign c s = s /\ (length s <= 1 \/ hd_error s <> Some c)) \/ (s = c :: strip_sign c s /\ strip_sign c s <> []).
Proof.
  destruct s as [|b [|b' s]]; cbn [strip_sign]; [left; split; [reflexivity|left; cbn; lia]..|].
  destruct (byte_eqb_spec b c) as [->|H]; [right; split; [reflexivity|discriminate]|left; split; [reflexivity|right; cbn; congruence]].
Qed.

(** What is printed parses back. *)
Lemma parse_show radix max n : (2 <= radix <= 36)%N -> (n <= max)%N -> parse_uint radix max (show radix n) = Some n.
Proof.
  intros R M. destruct (show_spec radix n) as (ds & E & F & V & NE & _); [lia|]. rewrite E. unfold parse_uint.
  destruct ds as [|d ds]; [congruence|]. assert (Hd : (d < radix)%N) by (inversion F; assumption).
  assert (P : strip_sign x2b (map show_digit (d :: ds)) = map show_digit (d :: ds)).
  { destruct (strip_sign_spec x2b (map show_digit (d :: ds))) as [[H _]|[H _]]; [exact H|].
    exfalso. cbn [map] in H. apply (f_equal (hd x00)) in H. cbn [hd] in H.
    apply (show_digit_not d x2b); [lia|reflexivity|exact H]. }
  rewrite P. rewrite digits_show by (lia || exact F). cbn [map].
  fold (value_of radix (d :: ds)). rewrite V. rewrite (proj2 (N.leb_le _ _) M). reflexivity.
Qed.

(** Exactly what parses: an optional plus and digits whose value fits. *)
Lemma parse_uint_some radix max s n : parse_uint radix max s = Some n <->
  (n <= max)%N /\ exists t, t <> [] /\ (s = t \/ s = x2b :: t) /\ digits radix 0 t = Some n.
Proof.
  unfold parse_uint. split.
  - intros H. assert (T := strip_sign_spec x2b s). set (t := strip_sign x2b s) in *.
    destruct t as [|b t'] eqn:Et; [discriminate|]. destruct (digits radix 0 (b :: t')) as [v|] eqn:D; [|discriminate].
    destruct (N.leb_spec v max) as [L|]; [|discriminate]. injection H as <-. split; [exact L|].
    exists (b :: t'). split; [discriminate|]. split; [|exact D]. destruct T as [[T _]|[T _]]; [left; symmetry|right]; exact T.
  - intros [L (t & NE & T & D)].
    assert (K : strip_sign x2b s = t).
    { destruct T as [->| ->].
      - destruct (strip_sign_spec x2b t) as [[H _]|[H _]]; [exact H|]. exfalso. rewrite H in D. cbn [digits] in D.
        assert (Q : digit radix x2b = None) by reflexivity. rewrite Q in D. discriminate.
      - destruct t; [congruence|reflexivity]. }
    rewrite K. destruct t; [congruence|]. rewrite D. rewrite (proj2 (N.leb_le _ _) L). reflexivity.
Qed.

Lemma digit10 b d : digit 10 b = Some d <-> (d < 10)%N /\ b = u8 (48 + d).
Proof.
  unfold digit. assert (Hb := BaseP.n_of_lt b). split.
  - destruct ((48 <=? n_of b) && (n_of b <=? 57))%N eqn:E.
    + apply andb_true_iff in E. destruct E as [E1 E2]. apply N.leb_le in E1, E2.
      destruct (N.ltb_spec (n_of b - 48) 10); [|discriminate]. intros H0. injection H0 as <-. split; [lia|].
      apply BaseP.n_of_inj. rewrite n_of_small; lia.
    + apply andb_false_iff in E. destruct ((97 <=? n_of b) && (n_of b <=? 122))%N eqn:E2; [|destruct ((65 <=? n_of b) && (n_of b <=? 90))%N eqn:E3].
      * apply andb_true_iff in E2. rewrite !N.leb_le in E2. destruct (N.ltb_spec (n_of b - 87) 10); [|discriminate]. lia.
      * apply andb_true_iff in E3. rewrite !N.leb_le in E3. destruct (N.ltb_spec (n_of b - 55) 10); [|discriminate]. lia.
      * discriminate.
  - intros [H ->]. rewrite n_of_small by lia.
    replace ((48 <=? 48 + d) && (48 + d <=? 57))%N with true by (symmetry; apply andb_true_iff; split; apply N.leb_le; lia).
    replace (48 + d - 48)%N with d by lia. rewrite (proj2 (N.ltb_lt _ _) H). reflexivity.
Qed.

Lemma digits10 s a n : digits 10 a s = Some n <->
  exists ds, Forall (fun d => d < 10)%N ds /\ s = map (fun d => u8 (48 + d)) ds /\ fold_left (fun a d => a * 10 + d)%N ds a = n.
Proof.
  revert a. induction s as [|b s IH]; intros a; cbn [digits].
  - split.
    + intros H. injection H as <-. exists []. repeat split. constructor.
    + intros ([|d ds] & _ & E & V); [|discriminate]. cbn in V. congruence.
  - split.
    + destruct (digit 10 b) as [d|] eqn:D; [|discriminate]. apply digit10 in D. destruct D as [D ->]. intros H.
      apply IH in H. destruct H as (ds & F & -> & V). exists (d :: ds). repeat split; [constructor; assumption|exact V].
    + intros ([|d ds] & F & E & V); [discriminate|]. cbn [map] in E.
      assert (Eb : b = u8 (48 + d)) by (apply (f_equal (hd x00)) in E; exact E).
      assert (Es : s = map (fun d => u8 (48 + d)) ds) by (apply (f_equal (@tl _)) in E; exact E).
      inversion_clear F. rewrite Eb.
      rewrite (proj2 (digit10 (u8 (48 + d)) d)) by (split; [assumption|reflexivity]). apply IH. exists ds. auto.
Qed.
