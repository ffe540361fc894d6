(** Certificates and URLs. *)
From Coq Require Import NArith Arith List Lia Bool.
From Coq Require Import Init.Byte Strings.Byte.
From Verif.Model Require Import Base Map Text Auth Native.
From Verif.Spec Require Import NativeSpec.
From Verif.Proofs Require Import MapP TextP.
Import ListNotations.

(** ** Hexadecimal text *)
Lemma digit_nibble b v : digit 16 b = Some v <-> nibble b v.
Proof.
  unfold digit, nibble. destruct ((48 <=? n_of b) && (n_of b <=? 57))%N eqn:E1.
  - apply andb_true_iff in E1. destruct E1 as [A B]. apply N.leb_le in A, B.
    destruct (N.ltb_spec (n_of b - 48) 16); [|lia]. split.
    + intros [= <-]. left. eexists. split; [reflexivity|]. lia.
    + intros [(k & -> & H1 & H2)|(k & -> & H1 & H2)]; [f_equal; lia|lia].
  - apply andb_false_iff in E1. rewrite !N.leb_gt in E1.
    destruct ((97 <=? n_of b) && (n_of b <=? 122))%N eqn:E2.
    + apply andb_true_iff in E2. destruct E2 as [A B]. apply N.leb_le in A, B.
      destruct (N.ltb_spec (n_of b - 87) 16).
      * split.
        -- intros [= <-]. right. exists (n_of b - 97)%N. lia.
        -- intros [(k & -> & H1 & H2)|(k & -> & H1 & H2)]; [lia|f_equal; lia].
      * split; [discriminate|]. intros [(k & -> & H1 & H2)|(k & -> & H1 & H2)]; lia.
    + apply andb_false_iff in E2. rewrite !N.leb_gt in E2.
      destruct ((65 <=? n_of b) && (n_of b <=? 90))%N eqn:E3.
      * apply andb_true_iff in E3. destruct E3 as [A B]. apply N.leb_le in A, B.
        destruct (N.ltb_spec (n_of b - 55) 16).
        -- split.
           ++ intros [= <-]. right. exists (n_of b - 65)%N. lia.
           ++ intros [(k & -> & H1 & H2)|(k & -> & H1 & H2)]; [lia|f_equal; lia].
        -- split; [discriminate|]. intros [(k & -> & H1 & H2)|(k & -> & H1 & H2)]; lia.
      * apply andb_false_iff in E3. rewrite !N.leb_gt in E3.
        split; [discriminate|]. intros [(k & -> & H1 & H2)|(k & -> & H1 & H2)]; lia.
Qed.

Lemma unhex_hexes t : forall r, unhex t = Some r <-> hexes t r.
Proof.
  induction t as [t IH] using (well_founded_induction (Wf_nat.well_founded_ltof _ (@length byte))).
  unfold Wf_nat.ltof in IH. intros r. destruct t as [|a [|b t]].
  - cbn. split; [intros [= <-]; constructor|inversion 1; reflexivity].
  - cbn. split; [discriminate|inversion 1].
  - cbn [unhex]. split.
    + destruct (digit 16 a) as [x|] eqn:A; [|discriminate]. destruct (digit 16 b) as [y|] eqn:B; [|discriminate].
      destruct (unhex t) as [r'|] eqn:T; [|discriminate]. intros [= <-].
      constructor; [apply digit_nibble, A|apply digit_nibble, B|apply IH; [cbn; lia|exact T]].
    + inversion 1 as [|a' b' x y t' r' HA HB HT]; subst.
      rewrite (proj2 (digit_nibble _ _) HA), (proj2 (digit_nibble _ _) HB), (proj2 (IH t ltac:(cbn; lia) r') HT). reflexivity.
Qed.

Lemma n_of_lt b : (n_of b < 256)%N.
Proof. unfold n_of. destruct b; reflexivity. Qed.
Lemma u8_n_of b : u8 (n_of b) = b.
Proof. destruct b; reflexivity. Qed.
Lemma hex_digit_nibble n : (n < 16)%N -> nibble (hex_digit n) n.
Proof.
  intros H. unfold hex_digit, nibble. destruct (N.ltb_spec n 10).
  - left. exists n. rewrite n_of_small by lia. lia.
  - right. exists (n - 10)%N. rewrite n_of_small by lia. lia.
Qed.
Lemma hexes_hex b : hexes (hex b) b.
Proof.
  induction b as [|x b IH]; [constructor|]. cbn [hex flat_map app].
  pose proof (n_of_lt x). pose proof (N.div_mod' (n_of x) 16). pose proof (N.mod_lt (n_of x) 16 ltac:(lia)).
  rewrite <- (u8_n_of x) at 3. replace (n_of x) with (n_of x / 16 * 16 + n_of x mod 16)%N at 3 by lia.
  constructor; [apply hex_digit_nibble, N.div_lt_upper_bound; lia|apply hex_digit_nibble; lia|exact IH].
Qed.
Lemma hexes_fun t a b : hexes t a -> hexes t b -> a = b.
Proof. intros A B. apply unhex_hexes in A, B. congruence. Qed.

(** ** Trimming *)
Lemma trim_left_spec s : exists l, s = l ++ trim_left s /\ Forall (fun b => space b = true) l.
Proof.
  induction s as [|b s IH]; cbn; [exists []; auto|]. destruct (space b) eqn:E; [|exists []; auto].
  destruct IH as (l & H & F). exists (b :: l). cbn. split; [congruence|auto].
Qed.
Lemma trim_left_hd s b x : trim_left s = b :: x -> space b = false.
Proof. induction s as [|c s IH]; cbn; [discriminate|]. destruct (space c) eqn:E; [exact IH|intros [= <- _]; exact E]. Qed.
Lemma trim_left_app l s : Forall (fun b => space b = true) l -> trim_left (l ++ s) = trim_left s.
Proof. induction 1 as [|b l H _ IH]; cbn; [reflexivity|]. rewrite H. exact IH. Qed.
Lemma trim_left_id s : (forall b x, s = b :: x -> space b = false) -> trim_left s = s.
Proof. destruct s as [|b s]; cbn; [reflexivity|]. intros H. rewrite (H b s eq_refl). reflexivity. Qed.
Lemma trim_padded s t : padded s t -> trim s = t.
Proof.
  intros (l & r & -> & F & H1 & H2). apply Forall_app in F. destruct F as [Fl Fr]. unfold trim.
  rewrite trim_left_app by exact Fl. destruct t as [|b t].
  - cbn [app]. rewrite <- (app_nil_r r), (trim_left_app r []) by exact Fr. reflexivity.
  - rewrite (trim_left_id ((b :: t) ++ r)) by (cbn; intros ? ? [= <- _]; apply (H1 b t eq_refl)).
    rewrite rev_app_distr, trim_left_app by (apply Forall_rev, Fr).
    rewrite trim_left_id; [apply rev_involutive|]. intros c x E. apply (H2 c (rev x)).
    rewrite <- (rev_involutive (b :: t)), E. reflexivity.
Qed.
Lemma trim_is s : padded s (trim s).
Proof.
  unfold trim. destruct (trim_left_spec s) as (l & E & F). destruct (trim_left_spec (rev (trim_left s))) as (r & E' & F').
  exists l, (rev r). split; [|split; [|split]].
  - rewrite E at 1. f_equal. rewrite <- rev_app_distr, <- E', rev_involutive. reflexivity.
  - apply Forall_app. split; [exact F|apply Forall_rev, F'].
  - intros b x H. destruct (trim_left s) as [|c u] eqn:T.
    { cbn in H. discriminate. }
    pose proof (trim_left_hd _ _ _ T) as C. assert (b = c) as ->; [|exact C].
    assert (K : rev (trim_left (rev (c :: u))) ++ rev r = c :: u) by (rewrite <- rev_app_distr, <- E', rev_involutive; reflexivity).
    rewrite H in K. cbn in K. congruence.
  - intros b x H. apply (trim_left_hd (rev (trim_left s)) b (rev x)).
    rewrite <- (rev_involutive (trim_left _)), H, rev_app_distr. reflexivity.
Qed.

Lemma hex_plain b : Forall (fun c => space c = false) (hex b).
Proof.
  assert (H : forall n, (n < 16)%N -> space (hex_digit n) = false).
  { intros n L. unfold hex_digit, space. destruct (N.ltb_spec n 10); rewrite n_of_small by lia;
    repeat match goal with |- context [(?a <=? ?b)%N] => destruct (N.leb_spec a b) end; try lia; cbn; apply N.eqb_neq; lia. }
  induction b as [|x b IH]; [constructor|]. cbn [hex flat_map app].
  pose proof (n_of_lt x). pose proof (N.mod_lt (n_of x) 16 ltac:(lia)).
  constructor; [apply H, N.div_lt_upper_bound; lia|]. constructor; [apply H; lia|exact IH].
Qed.
Lemma padded_plain t : Forall (fun c => space c = false) t -> padded t t.
Proof.
  intros F. exists [], []. rewrite app_nil_r. repeat split; [constructor| |].
  - intros b x ->. inversion F; assumption.
  - intros b x ->. apply Forall_app in F. destruct F as [_ F]. inversion F; assumption.
Qed.

Section P.
Context (sha : bytes -> bytes) (names : bytes -> option (bytes -> bool)) (dns : bytes -> bool) (trusted : bytes -> bytes -> bool).

Lemma pinned_exact insecure fetched leaf host :
  connect sha trusted insecure s_http fetched leaf host = Val (Connected false) <->
  exists s t, fetched = Some s /\ padded s t /\ hexes t (sha leaf).
Proof.
  unfold connect, verifier_of. rewrite (str_eqb_refl s_http). split.
  - destruct fetched as [s|]; [|discriminate]. destruct (unhex (trim s)) as [f|] eqn:U; [|discriminate].
    cbn [orb negb str_eqb]. change (str_eqb s_https s_https) with true. cbn [orb negb].
    cbn [accepts]. destruct (str_eqb_spec (sha leaf) f) as [->|N]; cbn [negb]; [|discriminate]. intros _.
    exists s, (trim s). split; [reflexivity|]. split; [apply trim_is|]. apply unhex_hexes, U.
  - intros (s & t & -> & P & H). rewrite (trim_padded _ _ P), (proj2 (unhex_hexes _ _) H).
    change (str_eqb s_https s_https) with true. cbn [orb negb accepts]. rewrite str_eqb_refl. reflexivity.
Qed.

Lemma page_connects insecure certs p leaf host : page sha certs = Val p ->
  connect sha trusted insecure s_http (Some p) leaf host = Val (Connected false) <->
  exists c r, certs = c :: r /\ sha leaf = sha c.
Proof.
  unfold page, fingerprints. destruct certs as [|c r]; cbn [map]; [discriminate|]. intros [= <-].
  rewrite pinned_exact. pose proof (padded_plain _ (hex_plain (sha c))) as PP. split.
  - intros (s & t & [= <-] & P & H). exists c, r. split; [reflexivity|].
    assert (t = hex (sha c)) as -> by (rewrite <- (trim_padded _ _ P); symmetry; rewrite <- (trim_padded _ _ PP) at 1; reflexivity).
    exact (hexes_fun _ _ _ H (hexes_hex _)).
  - intros (c' & r' & [= <- <-] & E). exists (hex (sha c)), (hex (sha c)). split; [reflexivity|]. split; [exact PP|].
    rewrite E. apply hexes_hex.
Qed.

(** ** The certificate presented *)
Lemma first_valid_val certs n : Forall (parsable names) certs -> exists o, first_valid names certs n = Val o.
Proof.
  induction 1 as [|c certs H _ [o IH]]; cbn; [eauto|]. unfold parsable in H. destruct (names c) as [f|]; [|congruence].
  destruct (f n); eauto.
Qed.
Lemma first_valid_some certs n c : first_valid names certs n = Val (Some c) <->
  exists l r, certs = l ++ c :: r /\ valid_for names c n /\ Forall (parsable names) l /\ Forall (fun x => ~ valid_for names x n) l.
Proof.
  induction certs as [|x certs IH]; cbn.
  - split; [discriminate|]. intros (l & r & H & _). destruct l; discriminate.
  - destruct (names x) as [f|] eqn:X.
    + destruct (f n) eqn:F.
      * split.
        -- intros [= <-]. exists [], certs. repeat split; [exists f; auto|constructor|constructor].
        -- intros (l & r & H & _ & _ & N). destruct l as [|y l]; cbn in H; [congruence|].
           injection H as <- ->. inversion N as [|? ? K _]; subst. exfalso. apply K. exists f. auto.
      * rewrite IH. split.
        -- intros (l & r & -> & V & P & N). exists (x :: l), r. repeat split; [exact V|constructor; [unfold parsable; congruence|exact P]|].
           constructor; [|exact N]. intros (g & G & H). congruence.
        -- intros (l & r & H & V & P & N). destruct l as [|y l]; cbn in H.
           ++ injection H as <- ->. destruct V as (g & G & H). congruence.
           ++ injection H as <- ->. inversion P; inversion N; subst. exists l, r. auto.
    + split; [discriminate|]. intros (l & r & H & V & P & N). destruct l as [|y l]; cbn in H.
      * injection H as <- ->. destruct V as (g & G & _). congruence.
      * injection H as <- ->. inversion P as [|? ? K _]; subst. exfalso. apply K. exact X.
Qed.
Lemma first_valid_none certs n : first_valid names certs n = Val None <->
  Forall (parsable names) certs /\ Forall (fun x => ~ valid_for names x n) certs.
Proof.
  induction certs as [|x certs IH]; cbn; [split; auto|]. destruct (names x) as [f|] eqn:X.
  - destruct (f n) eqn:F.
    + split; [discriminate|]. intros [_ N]. inversion N as [|? ? K _]; subst. exfalso. apply K. exists f. auto.
    + rewrite IH. split.
      * intros [P N]. split; constructor; auto; [unfold parsable; congruence|]. intros (g & G & H). congruence.
      * intros [P N]. inversion P; inversion N; auto.
  - split; [discriminate|]. intros [P _]. inversion P as [|? ? K _]; subst. exfalso. apply K. exact X.
Qed.

Lemma resolve_panics certs sni : resolve names dns certs sni = Panic <->
  exists n l c r, sni = Some n /\ dns n = true /\ certs = l ++ c :: r /\ names c = None /\
    Forall (parsable names) l /\ Forall (fun x => ~ valid_for names x n) l.
Proof.
  unfold resolve, best. destruct sni as [n|]; [|split; [discriminate|intros (? & ? & ? & ? & H & _); discriminate]].
  destruct (dns n) eqn:D; [|split; [discriminate|intros (? & ? & ? & ? & [= <-] & H & _); congruence]].
  transitivity (first_valid names certs n = Panic).
  { destruct (first_valid names certs n) as [[c|]|]; split; intros H; congruence. }
  induction certs as [|x certs IH]; cbn.
  - split; [discriminate|]. intros (? & l & c & r & _ & _ & H & _). destruct l; discriminate.
  - destruct (names x) as [f|] eqn:X.
    + destruct (f n) eqn:F.
      * split; [discriminate|]. intros (? & l & c & r & [= <-] & _ & H & U & _ & N). destruct l as [|y l]; cbn in H.
        -- injection H as <- ->. congruence.
        -- injection H as <- ->. inversion N as [|? ? K _]; subst. exfalso. apply K. exists f. auto.
      * rewrite IH. split.
        -- intros (? & l & c & r & [= <-] & _ & -> & U & P & N). exists n, (x :: l), c, r. repeat split; auto; constructor; auto.
           ++ unfold parsable. congruence.
           ++ intros (g & G & H). congruence.
        -- intros (? & l & c & r & [= <-] & _ & H & U & P & N). destruct l as [|y l]; cbn in H.
           ++ injection H as <- ->. congruence.
           ++ injection H as <- ->. inversion P; inversion N; subst. exists n, l, c, r. repeat split; auto.
    + split; [|reflexivity]. intros _. exists n, [], x, certs. repeat split; auto.
Qed.
End P.
