(** Key files and tokens. *)
From Coq Require Import NArith ZArith Arith.
From Coq Require Import Strings.String.
From Coq Require Import List Lia Bool.
From Coq Require Import Init.Byte Strings.Byte.
From Verif.Model Require Import Base Map Text Codec Base64 Json Native Catalog CatalogJson Auth Token.
From Verif.Spec Require Import CodingSpec CodecSpec NativeSpec JsonSpec CatalogJsonSpec TokenSpec.
From Verif.Proofs Require Import BaseP MapP TextP JsonP CatalogJsonP CatalogPrintP Base64P.
Import ListNotations.
Open Scope N_scope.
Local Notation length := List.length.

(** ** Leaves *)
Lemma reads_name : reads read_name is_name.
Proof.
  intros v s W. unfold read_name, is_name. split.
  - intros H. destruct v as [| | |raw| |[|[raw x] [|? ?]]]; try discriminate.
    + left. exists raw. split; [reflexivity|]. apply of_option_got in H. inversion W; subst. apply string_of_exact; assumption.
    + destruct x; try discriminate. right. exists raw. split; [reflexivity|]. apply of_option_got in H. inversion W as [| | | | |? F]; subst.
      inversion F as [|? ? [S _] _]; subst. apply string_of_exact; assumption.
    + destruct x; discriminate.
  - intros [(raw & -> & T)|(raw & -> & T)]; apply of_option_got, string_of_complete; exact T.
Qed.
Lemma is_name_fun v s t : is_name v s -> is_name v t -> s = t.
Proof.
  intros [(r & -> & A)|(r & -> & A)] [(q & E & B)|(q & E & B)]; try discriminate; injection E as <-; apply string_of_complete in A, B; congruence.
Qed.
Lemma algorithm_parse_iff s a : algorithm_parse s = Some a <-> s = text (algorithm_name a).
Proof.
  unfold algorithm_parse. change [x48; x53; x32; x35; x36] with (text (algorithm_name HS256)). change [x48; x53; x33; x38; x34] with (text (algorithm_name HS384)).
  change [x48; x53; x35; x31; x32] with (text (algorithm_name HS512)).
  destruct (str_eqb_spec s (text (algorithm_name HS256))) as [->|N1]; [split; [intros [= <-]; reflexivity|destruct a; [reflexivity|discriminate..]]|].
  destruct (str_eqb_spec s (text (algorithm_name HS384))) as [->|N2]; [split; [intros [= <-]; reflexivity|destruct a; [discriminate|reflexivity|discriminate]]|].
  destruct (str_eqb_spec s (text (algorithm_name HS512))) as [->|N3]; [split; [intros [= <-]; reflexivity|destruct a; [discriminate..|reflexivity]]|].
  split; [discriminate|]. destruct a; intros ->; contradiction.
Qed.
Lemma operation_parse_iff s a : operation_parse s = Some a <-> s = text (operation_name a).
Proof.
  unfold operation_parse. change (text "sign") with (text (operation_name OpSign)). change (text "verify") with (text (operation_name OpVerify)).
  change (text "decrypt") with (text (operation_name OpDecrypt)). change (text "encrypt") with (text (operation_name OpEncrypt)).
  destruct (str_eqb_spec s (text (operation_name OpSign))) as [->|N1]; [split; [intros [= <-]; reflexivity|destruct a; [reflexivity|discriminate..]]|].
  destruct (str_eqb_spec s (text (operation_name OpVerify))) as [->|N2]; [split; [intros [= <-]; reflexivity|destruct a; [discriminate|reflexivity|discriminate..]]|].
  destruct (str_eqb_spec s (text (operation_name OpDecrypt))) as [->|N3]; [split; [intros [= <-]; reflexivity|destruct a; [discriminate..|reflexivity|discriminate]]|].
  destruct (str_eqb_spec s (text (operation_name OpEncrypt))) as [->|N4]; [split; [intros [= <-]; reflexivity|destruct a; [discriminate..|reflexivity]]|].
  split; [discriminate|]. destruct a; intros ->; contradiction.
Qed.
Lemma reads_algorithm : reads read_algorithm is_algorithm.
Proof.
  intros v a W. unfold read_algorithm, is_algorithm. rewrite gbind_got. split.
  - intros (s & A & B). apply of_option_got, algorithm_parse_iff in B. subst s. apply reads_name; assumption.
  - intros H. exists (text (algorithm_name a)). split; [apply reads_name; assumption|]. apply of_option_got, algorithm_parse_iff. reflexivity.
Qed.
Lemma reads_operation : reads read_operation is_operation.
Proof.
  intros v a W. unfold read_operation, is_operation. rewrite gbind_got. split.
  - intros (s & A & B). apply of_option_got, operation_parse_iff in B. subst s. apply reads_name; assumption.
  - intros H. exists (text (operation_name a)). split; [apply reads_name; assumption|]. apply of_option_got, operation_parse_iff. reflexivity.
Qed.
Lemma operation_eqb_spec a b : reflect (a = b) (operation_eqb a b).
Proof. destruct a, b; constructor; congruence. Qed.
Lemma existsb_op o l : existsb (operation_eqb o) l = true <-> In o l.
Proof.
  rewrite existsb_exists. split.
  - intros (x & I & E). destruct (operation_eqb_spec o x); [subst; exact I|discriminate].
  - intros I. exists o. split; [exact I|]. destruct (operation_eqb_spec o o); congruence.
Qed.
Lemma filter_nin (f : operation -> bool) l : (forall x, In x l -> f x = true) -> filter f l = l.
Proof. induction l as [|x l IH]; cbn; intros H; [reflexivity|]. rewrite H by auto. f_equal. auto. Qed.
Lemma fold_insert l : forall acc, fold_left set_insert l acc = acc ++ filter (fun o => negb (existsb (operation_eqb o) acc)) (distinct l).
Proof.
  induction l as [|o l IH]; intros acc; cbn [fold_left distinct filter]; [rewrite app_nil_r; reflexivity|]. rewrite IH. unfold set_insert.
  assert (F : forall g h (r : list operation), filter g (filter h r) = filter (fun x => h x && g x) r).
  { intros g h r. induction r as [|x r IHr]; cbn; [reflexivity|]. destruct (h x); cbn; [destruct (g x); rewrite IHr; reflexivity|exact IHr]. }
  destruct (existsb (operation_eqb o) acc) eqn:E; cbn [negb].
  - f_equal. rewrite F. apply filter_ext. intros x. destruct (operation_eqb_spec o x) as [<-|]; cbn; [rewrite E; reflexivity|reflexivity].
  - rewrite <- app_assoc. cbn [app]. f_equal. f_equal. rewrite F. apply filter_ext. intros x. rewrite existsb_app. cbn [existsb]. rewrite orb_false_r, negb_orb.
    rewrite andb_comm. f_equal. destruct (operation_eqb_spec o x), (operation_eqb_spec x o); congruence.
Qed.
Lemma fold_distinct l : fold_left set_insert l [] = distinct l.
Proof. rewrite fold_insert. cbn [app existsb]. apply filter_nin. reflexivity. Qed.
Lemma distinct_in o l : In o (distinct l) <-> In o l.
Proof.
  induction l as [|x l IH]; cbn; [reflexivity|]. rewrite filter_In, IH. destruct (operation_eqb_spec x o) as [->|N]; cbn.
  - split; auto.
  - split; [intros [H|[H _]]; auto|]. intros [H|H]; [contradiction|auto].
Qed.
Lemma distinct_nodup l : NoDup l -> distinct l = l.
Proof.
  induction 1 as [|x l N D IH]; cbn; [reflexivity|]. rewrite IH. f_equal. apply filter_nin. intros y I. destruct (operation_eqb_spec x y) as [->|]; [contradiction|reflexivity].
Qed.
Lemma reads_operations : reads read_operations is_operations.
Proof.
  intros v l W. unfold read_operations, is_operations. rewrite gmap_got. split.
  - intros (r & A & ->). exists r. split; [apply (reads_list _ _ reads_operation); assumption|apply fold_distinct].
  - intros (r & A & ->). exists r. split; [apply (reads_list _ _ reads_operation); assumption|symmetry; apply fold_distinct].
Qed.
Lemma reads_base64 : reads read_base64 is_base64.
Proof.
  intros v b W. unfold read_base64, is_base64. rewrite gbind_got. split; intros (s & A & B); exists s.
  - apply reads_string in A; [|exact W]. apply of_option_got, unpadded_exact in B. auto.
  - split; [apply reads_string; assumption|]. apply of_option_got, unpadded_exact. exact B.
Qed.
Lemma digit_not_minus d n : ~ counts (minus :: d) n.
Proof. intros [[_ F] _]. inversion F as [|? ? I _]; subst. cbn in I. repeat destruct I as [I|I]; try discriminate. exact I. Qed.
Lemma int_of_iff t z : int_of t = Some z <->
  (exists n, counts t n /\ n < 2 ^ 63 /\ z = Z.of_N n) \/ (exists d n, t = "-"%byte :: d /\ counts d n /\ 0 < n <= 2 ^ 63 /\ z = (- Z.of_N n)%Z).
Proof.
  unfold int_of. destruct t as [|b d].
  - split; [discriminate|]. intros [(n & [[H _] _] & _)|(d & n & H & _)]; [congruence|discriminate].
  - destruct (beq_spec b minus) as [->|N].
    + destruct (uint_of (2 ^ 63) d) as [n|] eqn:E.
      * apply uint_of_exact in E. destruct E as [C L]. destruct n as [|p].
        -- split; [discriminate|]. intros [(n & H & _)|(d' & n & [= <-] & H & L' & _)]; [destruct (digit_not_minus _ _ H)|]. pose proof (decimal_inj _ _ _ C H). lia.
        -- split.
           ++ intros [= <-]. right. exists d, (N.pos p). split; [reflexivity|]. split; [exact C|]. split; [lia|reflexivity].
           ++ intros [(n & H & _)|(d' & n & [= <-] & H & L' & ->)]; [destruct (digit_not_minus _ _ H)|]. pose proof (decimal_inj _ _ _ C H) as <-. reflexivity.
      * split; [discriminate|]. intros [(n & H & _)|(d' & n & [= <-] & H & L' & _)]; [destruct (digit_not_minus _ _ H)|].
        assert (uint_of (2 ^ 63) d = Some n) by (apply uint_of_exact; split; [exact H|lia]). congruence.
    + destruct (uint_of (2 ^ 63 - 1) (b :: d)) as [n|] eqn:E.
      * apply uint_of_exact in E. destruct E as [C L]. split.
        -- intros [= <-]. left. exists n. split; [exact C|]. split; [lia|reflexivity].
        -- intros [(m & H & L' & ->)|(d' & m & [= -> _] & _)]; [|destruct (N eq_refl)]. pose proof (decimal_inj _ _ _ C H) as <-. reflexivity.
      * split; [discriminate|]. intros [(m & H & L' & ->)|(d' & m & [= -> _] & _)]; [|destruct (N eq_refl)].
        assert (uint_of (2 ^ 63 - 1) (b :: d) = Some m) by (apply uint_of_exact; split; [exact H|lia]). congruence.
Qed.
Lemma reads_int64 : reads read_int64 is_int64.
Proof.
  intros v z W. unfold read_int64, is_int64. destruct v as [|b|t|raw|vs|es]; try (split; [discriminate|intros (? & ? & _); discriminate]).
  rewrite of_option_got, int_of_iff. split; [intros T; exists t; auto|intros (? & [= <-] & T); exact T].
Qed.
Lemma reads_jwk L : reads (read_jwk L) (is_jwk L).
Proof.
  intros v w W. unfold read_jwk, is_jwk. assert (H : v <> JNull -> (if lib_jwk L v then Got v else Refused) = Got w <-> v = w /\ v <> JNull /\ lib_jwk L v = true).
  { intros N. destruct (lib_jwk L v); split; [intros [= <-]; auto|intros (-> & _); reflexivity|discriminate|intros (_ & _ & [=])]. }
  destruct v; try (apply H; discriminate). split; [discriminate|]. intros (_ & C & _). congruence.
Qed.
#[export] Hint Resolve reads_algorithm reads_operations reads_base64 reads_int64 reads_jwk reads_string : reads.
Lemma reads_keyfile : reads read_keyfile is_keyfile.
Proof. unfold read_keyfile, is_keyfile. read_struct. Qed.
Lemma reads_payload : reads read_payload is_payload.
Proof. unfold read_payload, is_payload. read_struct. Qed.
Lemma reads_header L : reads (read_header L) (is_header L).
Proof. unfold read_header, is_header. read_struct. Qed.
Lemma document_wf v s : document v s -> wf v.
Proof. intros (w & t & w' & _ & _ & E & _). apply (proj1 read_wf _ _ E). Qed.
Theorem parse_keyfile_exact s k : parse_keyfile s = Got k <-> exists v, document v s /\ is_keyfile v k.
Proof.
  unfold parse_keyfile. split.
  - destruct (read_json s) as [v|] eqn:E; [|discriminate]. apply read_json_exact in E. intros H. exists v. split; [exact E|].
    apply reads_keyfile; [exact (document_wf _ _ E)|exact H].
  - intros (v & D & H). pose proof (document_wf _ _ D) as W. apply read_json_exact in D. rewrite D. apply reads_keyfile; assumption.
Qed.

(** ** Key files written *)
Lemma ascii_bytes s : (forall b, In b s -> n_of b < 128) -> is_text s.
Proof.
  induction s as [|b s IH]; intros H; [exists []; constructor|]. apply ascii_text; [apply H; left; reflexivity|]. apply IH. intros c I. apply H. right. exact I.
Qed.
Lemma alphabet_ascii b : In b alphabet -> n_of b < 128.
Proof.
  assert (H : forallb (fun b => n_of b <? 128) alphabet = true) by reflexivity. rewrite forallb_forall in H. intros I. apply N.ltb_lt. apply H. exact I.
Qed.
Lemma encode_text s : is_text (b64_encode s).
Proof. apply ascii_bytes. intros b I. apply alphabet_ascii. eapply encode_alphabet. exact I. Qed.
Lemma padded_text s : is_text (b64_padded s).
Proof.
  apply ascii_bytes. intros b I. unfold b64_padded in I. apply in_app_or in I. destruct I as [I|I]; [apply alphabet_ascii; eapply encode_alphabet; exact I|].
  apply repeat_spec in I. subst b. reflexivity.
Qed.
Lemma base64_slot s : is_base64 (j_string (b64_padded s)) s.
Proof. exists (b64_padded s). split; [apply string_slot, padded_text|apply padded_exact]. Qed.
Lemma algorithm_slot a : is_algorithm (j_algorithm a) a.
Proof. left. unfold j_algorithm. replace (text (algorithm_name a)) with (algorithm_show a) by (destruct a; reflexivity). apply string_slot. destruct a; apply utf8_valid_iff; reflexivity. Qed.
Lemma operation_slot o : is_operation (j_string (operation_show o)) o.
Proof. left. replace (text (operation_name o)) with (operation_show o) by (destruct o; reflexivity). apply string_slot. destruct o; apply utf8_valid_iff; reflexivity. Qed.
Lemma int_slot z : is_time z -> is_int64 (j_int z) z.
Proof.
  intros T. unfold is_time in T. exists (show_int z). split; [reflexivity|]. unfold show_int. destruct (Z.ltb_spec z 0) as [L|L].
  - right. exists (show 10 (Z.abs_N z)), (Z.abs_N z). split; [reflexivity|]. split; [apply show_counts|]. split; [|lia]. change (2 ^ 63) with (Z.to_N (2 ^ 63)). lia.
  - left. exists (Z.to_N z). split; [apply show_counts|]. split; [|lia]. change (2 ^ 63) with (Z.to_N (2 ^ 63)). lia.
Qed.
Lemma wf_int z : wf (j_int z).
Proof.
  constructor. unfold show_int. destruct (z <? 0)%Z; [|apply show_number]. destruct (show_digits (Z.abs_N z)) as (_ & _ & _ & I).
  exists [minus], (show 10 (Z.abs_N z)), [], []. split; [rewrite !app_nil_r; reflexivity|]. split; [right; left; reflexivity|]. split; [exact I|]. split; left; reflexivity.
Qed.
Definition keyfile_slots (k : key) :=
  [Some (j_algorithm (k_alg k)); Some (JArr (map (fun o => j_string (operation_show o)) (k_ops k))); Some (j_string (b64_padded (k_secret k))); null_map false j_string (k_kid k)].
Lemma j_keyfile_slots k : j_keyfile k = JObj (slots keyfile_names (keyfile_slots k)).
Proof. unfold j_keyfile. rewrite !optional_slot, !member_slot. cbn [slots keyfile_names keyfile_slots map]. rewrite app_nil_r. reflexivity. Qed.
Lemma keyfile_plain : Forall plain keyfile_names. Proof. plains. Qed.
Lemma keyfile_nodup : NoDup keyfile_names. Proof. nodup. Qed.
Lemma wf_keyfile k : wf (j_keyfile k).
Proof.
  rewrite j_keyfile_slots. apply wf_slots; [exact keyfile_plain|]. pose proof (wf_list (fun o => j_string (operation_show o)) (k_ops k) (fun o => wf_string _)).
  unfold keyfile_slots, j_algorithm. wf_each.
Qed.
Lemma keyfile_slot k : key_value k -> is_keyfile (j_keyfile k) k.
Proof.
  intros [D T]. rewrite j_keyfile_slots. unfold is_keyfile. cbv zeta. split; [apply structure_slots; [exact keyfile_plain|exact keyfile_nodup]|].
  at_slot 0%nat keyfile_plain keyfile_nodup. at_slot 1%nat keyfile_plain keyfile_nodup. at_slot 2%nat keyfile_plain keyfile_nodup. at_slot 3%nat keyfile_plain keyfile_nodup.
  split; [apply algorithm_slot|]. split; [|split; [apply base64_slot|intros s E; apply string_slot; auto]].
  exists (k_ops k). split; [|symmetry; apply distinct_nodup; exact D]. apply (is_list_map is_operation). apply Forall_forall. intros o _. apply operation_slot.
Qed.
Theorem keyfile_roundtrip k : key_value k -> parse_keyfile (print_keyfile k) = Got k.
Proof. intros V. apply parse_keyfile_exact. exists (j_keyfile k). split; [apply document_print, wf_keyfile|apply keyfile_slot; exact V]. Qed.

(** ** Claims and headers written *)
Definition payload_slots (nulls : bool) (p : payload) :=
  [filled (pl_path p) (j_string (pl_path p)); null_map nulls j_string (pl_publish p); null_map nulls j_string (pl_force p);
   null_map nulls j_string (pl_subscribe p); null_map nulls j_int (pl_expires p); null_map nulls j_int (pl_issued p)].
Lemma j_payload_slots n p : j_payload n p = JObj (slots payload_names (payload_slots n p)).
Proof.
  unfold j_payload. rewrite !perhaps_slot. cbn [slots payload_names payload_slots map]. rewrite app_nil_r. destruct (pl_path p); reflexivity.
Qed.
Lemma payload_plain : Forall plain payload_names. Proof. plains. Qed.
Lemma payload_nodup : NoDup payload_names. Proof. nodup. Qed.
Lemma wf_payload n p : wf (j_payload n p).
Proof. rewrite j_payload_slots. apply wf_slots; [exact payload_plain|]. pose proof wf_int. pose proof wf_string. wf_each. Qed.
Lemma payload_slot n p : payload_value p -> is_payload (j_payload n p) p.
Proof.
  intros (T1 & T2 & T3 & T4 & T5 & T6). rewrite j_payload_slots. unfold is_payload. cbv zeta.
  split; [apply structure_slots; [exact payload_plain|exact payload_nodup]|]. split.
  { destruct (pl_path p) as [|b s] eqn:E.
    - apply (or_slot_none payload_names (payload_slots n p) "path" 0 None payload_plain payload_nodup eq_refl); [|reflexivity]. cbn. rewrite E. reflexivity.
    - apply (or_slot payload_names (payload_slots n p) "path" 0 (Some (j_string (b :: s))) payload_plain payload_nodup eq_refl) with (y := j_string (b :: s)); [|reflexivity|].
      + cbn. rewrite E. reflexivity.
      + apply string_slot. exact T1. }
  repeat match goal with |- _ /\ _ => split end.
  - apply (may_slot payload_names (payload_slots n p) "pub" 1 _ payload_plain payload_nodup eq_refl eq_refl _ _ n (pl_publish p) eq_refl). intros s E. apply string_slot. auto.
  - apply (may_slot payload_names (payload_slots n p) "pub!" 2 _ payload_plain payload_nodup eq_refl eq_refl _ _ n (pl_force p) eq_refl). intros s E. apply string_slot. auto.
  - apply (may_slot payload_names (payload_slots n p) "sub" 3 _ payload_plain payload_nodup eq_refl eq_refl _ _ n (pl_subscribe p) eq_refl). intros s E. apply string_slot. auto.
  - apply (may_slot payload_names (payload_slots n p) "exp" 4 _ payload_plain payload_nodup eq_refl eq_refl _ _ n (pl_expires p) eq_refl). intros s E. apply int_slot. auto.
  - apply (may_slot payload_names (payload_slots n p) "iat" 5 _ payload_plain payload_nodup eq_refl eq_refl _ _ n (pl_issued p) eq_refl). intros s E. apply int_slot. auto.
Qed.
Definition signed_header (alg : algorithm) (kid : option bytes) : header := Header (Some (text "JWT")) alg None None None kid None None None None.
Definition header_slots (alg : algorithm) (kid : option bytes) : list (option json) :=
  [Some (j_string (text "JWT")); Some (j_algorithm alg); None; None; None; null_map false j_string kid; None; None; None; None].
Lemma j_header_slots alg kid : j_header alg kid = JObj (slots header_names (header_slots alg kid)).
Proof. unfold j_header. rewrite !optional_slot, !member_slot. cbn [slots header_names header_slots map]. cbn [slot app]. rewrite !app_nil_r. reflexivity. Qed.
Lemma header_plain : Forall plain header_names. Proof. plains. Qed.
Lemma header_nodup : NoDup header_names. Proof. nodup. Qed.
Lemma wf_header alg kid : wf (j_header alg kid).
Proof.
  rewrite j_header_slots. apply wf_slots; [exact header_plain|]. intros v I. unfold header_slots, j_algorithm in I. cbn [In] in I.
  repeat (destruct I as [I|I]; [first [discriminate I | injection I as <-; apply wf_string | symmetry in I; eapply wf_null_map; [|exact I]; apply wf_string]|]). destruct I.
Qed.
Lemma header_slot L alg kid : (forall s, kid = Some s -> is_text s) -> is_header L (j_header alg kid) (signed_header alg kid).
Proof.
  intros T. rewrite j_header_slots. unfold is_header, signed_header. cbv zeta. cbn [h_typ h_alg h_cty h_jku h_jwk h_kid h_x5u h_x5c h_x5t h_x5ts].
  split; [apply structure_slots; [exact header_plain|exact header_nodup]|].
  assert (N : forall A (P : json -> A -> Prop) k i, nth_error header_names i = Some (text k) -> nth_error (header_slots alg kid) i = Some None ->
    may header_names (JObj (slots header_names (header_slots alg kid))) k P None).
  { intros A P k i K O x H. apply (holds_slot header_names (header_slots alg kid) k i None header_plain header_nodup K O) in H. discriminate. }
  repeat match goal with |- _ /\ _ => split end.
  - apply (has_slot header_names (header_slots alg kid) "typ" 0 _ header_plain header_nodup eq_refl eq_refl is_string _ _ eq_refl). apply string_slot, utf8_valid_iff. reflexivity.
  - apply (has_slot header_names (header_slots alg kid) "alg" 1 _ header_plain header_nodup eq_refl eq_refl is_algorithm _ _ eq_refl). apply algorithm_slot.
  - eapply (N _ _ _ 2%nat); reflexivity.
  - eapply (N _ _ _ 3%nat); reflexivity.
  - eapply (N _ _ _ 4%nat); reflexivity.
  - apply (may_slot header_names (header_slots alg kid) "kid" 5 _ header_plain header_nodup eq_refl eq_refl _ _ false kid eq_refl). intros s E. apply string_slot. auto.
  - eapply (N _ _ _ 6%nat); reflexivity.
  - eapply (N _ _ _ 7%nat); reflexivity.
  - eapply (N _ _ _ 8%nat); reflexivity.
  - eapply (N _ _ _ 9%nat); reflexivity.
Qed.

(** ** Tokens *)
Lemma alphabet_not b : ~ In b alphabet -> forall s, ~ In b (b64_encode s).
Proof. intros N s I. apply N. eapply encode_alphabet. exact I. Qed.
Lemma no_dot : ~ In dot alphabet.
Proof. intros I. assert (H : existsb (Byte.eqb dot) alphabet = true) by (apply existsb_exists; exists dot; split; [exact I|reflexivity]). discriminate H. Qed.
Lemma algorithm_show_eq a b : str_eqb (algorithm_show a) (algorithm_show b) = true <-> a = b.
Proof. destruct a, b; vm_compute; split; congruence. Qed.
Section Lib.
Variable L : lib.
Lemma fresh_iff now t : fresh L now t = true <-> ((0 <= t)%Z /\ (Z.of_N now <= t + 60)%Z) \/ ((t < 0)%Z /\ lib_negative L t = true).
Proof.
  unfold fresh, leeway. destruct (Z.ltb_spec t 0) as [H|H].
  - split; [auto|]. intros [[A _]|[_ A]]; [lia|exact A].
  - rewrite negb_true_iff, N.ltb_ge. split; [intros A; left; lia|]. intros [[_ A]|[A _]]; lia.
Qed.
Lemma claims_ok_iff now v p : claims_ok L now v p = true <-> current L now p /\ others L v = true.
Proof.
  unfold claims_ok, current. rewrite andb_true_iff. apply and_iff_compat_r. destruct (pl_expires p) as [t|].
  - rewrite fresh_iff. split; [intros H u [= <-]; exact H|intros H; apply H; reflexivity].
  - split; [intros _ t [=]|reflexivity].
Qed.
Lemma others_plain v : wf v -> plain_claims v -> others L v = true.
Proof.
  intros W (es & -> & H). cbn [others]. assert (E : filter (fun e => match string_of (fst e) with Some k => is_other k | None => false end) es = []); [|rewrite E; reflexivity].
  inversion W as [| | | | |? F]; subst. rewrite Forall_forall in F. clear W.
  assert (G : forall e, In e es -> match string_of (fst e) with Some k => is_other k | None => false end = false).
  { intros [raw x] I. cbn [fst]. destruct (string_of raw) as [k|] eqn:E; [|reflexivity]. destruct (F _ I) as [S _]. apply string_of_exact in E; [|exact S].
    specialize (H raw x k I E). unfold is_other. destruct (str_eqb_spec k (text "nbf")) as [->|]; [destruct H; cbn; auto|].
    destruct (str_eqb_spec k (text "iss")) as [->|]; [destruct H; cbn; auto|]. destruct (str_eqb_spec k (text "aud")) as [->|]; [destruct H; cbn; auto|reflexivity]. }
  clear F H. induction es as [|e es IH]; cbn; [reflexivity|]. rewrite G by (left; reflexivity). apply IH. intros x I. apply G. right. exact I.
Qed.
Lemma payload_plain_claims n p : plain_claims (j_payload n p).
Proof.
  rewrite j_payload_slots. eexists. split; [reflexivity|]. intros raw x k I T. apply slots_in in I. destruct I as (i & I & _). apply nth_error_In in I.
  pose proof payload_plain as P. rewrite Forall_forall in P. apply plain_text in T; [|exact (P _ I)]. subst k. cbn in I.
  repeat destruct I as [<-|I]; try destruct I; intros C; cbn in C; repeat destruct C as [C|C]; try discriminate; exact C.
Qed.
Lemma encodes_iff t P : encodes t P <-> exists s v, b64_decode t = Some s /\ read_json s = Some v /\ P v.
Proof.
  unfold encodes. split; intros (s & v & A & B & C); exists s, v; (split; [apply decode_base64; exact A|split; [apply read_json_exact; exact B|exact C]]).
Qed.
Lemma encodes_wf t P : encodes t P -> encodes t (fun v => wf v /\ P v).
Proof. intros (s & v & A & B & C). exists s, v. split; [exact A|]. split; [exact B|]. split; [exact (document_wf _ _ B)|exact C]. Qed.
Theorem token_exact now alg secret token p : token_decode L now alg secret token = Some p <->
  exists h c, authentic L alg secret token h c /\ encodes h (fun v => exists hd, is_header L v hd /\ h_alg hd = alg) /\
    encodes c (fun v => is_payload v p /\ others L v = true) /\ current L now p.
Proof.
  unfold token_decode. split.
  - destruct (rsplit_once dot token) as [[message sg]|] eqn:E1; [|discriminate]. destruct (rsplit_once dot message) as [[h c]|] eqn:E2; [|discriminate].
    apply rsplit_some in E1, E2. destruct E1 as [-> _], E2 as [-> _].
    destruct (b64_decode h) as [hs|] eqn:E3; [|discriminate]. destruct (read_json hs) as [hv|] eqn:E4; [|discriminate]. destruct (read_header L hv) as [hd| |] eqn:E5; try discriminate.
    destruct (str_eqb (algorithm_show (h_alg hd)) (algorithm_show alg)) eqn:E6; cbn [andb]; [|discriminate]. apply algorithm_show_eq in E6.
    destruct (str_eqb_spec sg (b64_encode (lib_mac L alg secret (h ++ dot :: c)))) as [E7|]; [|discriminate].
    destruct (b64_decode c) as [cs|] eqn:E8; [|discriminate]. destruct (read_json cs) as [v|] eqn:E9; [|discriminate]. destruct (read_payload v) as [q| |] eqn:E10; try discriminate.
    destruct (claims_ok L now v q) eqn:E11; [|discriminate]. intros [= <-]. apply claims_ok_iff in E11. destruct E11 as [E11 E12].
    exists h, c. split; [|split; [|split]].
    + exists sg. split; [rewrite <- app_assoc; reflexivity|]. apply encode_base64. exact E7.
    + apply encodes_iff. exists hs, hv. split; [exact E3|]. split; [exact E4|]. exists hd. split; [|exact E6]. apply reads_header; [|exact E5].
      apply read_json_exact in E4. exact (document_wf _ _ E4).
    + apply encodes_iff. exists cs, v. split; [exact E8|]. split; [exact E9|]. split; [|exact E12]. apply reads_payload; [|exact E10].
      apply read_json_exact in E9. exact (document_wf _ _ E9).
    + exact E11.
  - intros (h & c & (sg & -> & S) & H & C & F). apply encode_base64 in S. change "."%byte with dot in *.
    assert (Nc : ~ In dot c) by (destruct C as (s & v & B & _); apply encode_base64 in B; subst c; apply alphabet_not, no_dot).
    assert (Ns : ~ In dot sg) by (subst sg; apply alphabet_not, no_dot).
    assert (E1 : rsplit_once dot (h ++ dot :: c ++ dot :: sg) = Some (h ++ dot :: c, sg)) by (apply rsplit_some; split; [rewrite <- app_assoc; reflexivity|exact Ns]).
    assert (E2 : rsplit_once dot (h ++ dot :: c) = Some (h, c)) by (apply rsplit_some; auto).
    rewrite E1, E2. apply encodes_wf, encodes_iff in H, C. destruct H as (hs & hv & -> & -> & Wh & hd & Hh & <-). destruct C as (cs & v & -> & -> & Wv & Hp & O).
    apply reads_header in Hh; [|exact Wh]. rewrite Hh. rewrite (proj2 (algorithm_show_eq _ _) eq_refl), S, str_eqb_refl. cbn [andb].
    apply reads_payload in Hp; [|exact Wv]. rewrite Hp. rewrite (proj2 (claims_ok_iff now v p) (conj F O)). reflexivity.
Qed.
Lemma header_encodes alg kid : (forall s, kid = Some s -> is_text s) ->
  encodes (b64_encode (print (j_header alg kid))) (fun v => exists hd, is_header L v hd /\ h_alg hd = alg).
Proof.
  intros T. exists (print (j_header alg kid)), (j_header alg kid). split; [apply encode_base64; reflexivity|]. split; [apply document_print, wf_header|].
  exists (signed_header alg kid). split; [apply header_slot; exact T|reflexivity].
Qed.
Lemma payload_encodes n p : payload_value p -> encodes (b64_encode (print (j_payload n p))) (fun v => is_payload v p /\ others L v = true).
Proof.
  intros V. exists (print (j_payload n p)), (j_payload n p). split; [apply encode_base64; reflexivity|]. split; [apply document_print, wf_payload|].
  split; [apply payload_slot; exact V|]. apply others_plain; [apply wf_payload|apply payload_plain_claims].
Qed.
(** A structure says at most one thing. *)
Lemma payload_fun v p q : wf v -> is_payload v p -> is_payload v q -> p = q.
Proof. intros W A B. apply reads_payload in A, B; [|exact W..]. congruence. Qed.
Lemma token_own n alg kid secret p :
  authentic L alg secret (token_encode L n alg kid secret p) (b64_encode (print (j_header alg kid))) (b64_encode (print (j_payload n p))).
Proof.
  unfold authentic, token_encode. eexists. split; [rewrite <- app_assoc; reflexivity|]. apply encode_base64. reflexivity.
Qed.
Theorem token_roundtrip n now alg kid secret p : (forall s, kid = Some s -> is_text s) -> payload_value p ->
  token_decode L now alg secret (token_encode L n alg kid secret p) = Some p <-> current L now p.
Proof.
  intros T V. rewrite token_exact. split; [intros (h & c & _ & _ & _ & H); exact H|]. intros F.
  eexists. eexists. split; [apply token_own|]. split; [apply header_encodes; exact T|]. split; [apply payload_encodes; exact V|exact F].
Qed.
Lemma token_bytes n alg kid secret p b : In b (token_encode L n alg kid secret p) -> b = dot \/ In b alphabet.
Proof.
  unfold token_encode. rewrite !in_app_iff. cbn [In].
  intros [[H|[H|H]]|[H|H]]; auto; right; eapply encode_alphabet; exact H.
Qed.
(** Whatever has more at its end than a token is none. *)
Lemma trailing now alg secret token b : ~ In b alphabet -> b <> dot -> token_decode L now alg secret (token ++ [b]) = None.
Proof.
  intros N D. destruct (token_decode L now alg secret (token ++ [b])) as [p|] eqn:E; [|reflexivity]. apply token_exact in E. destruct E as (h & c & (s & E & S) & _).
  apply encode_base64 in S. exfalso. destruct s as [|x s] using rev_ind.
  - change (h ++ "."%byte :: c ++ ["."%byte]) with (h ++ ("."%byte :: c) ++ ["."%byte]) in E. rewrite app_assoc in E. apply app_inj_tail in E. destruct E as [_ E]. exact (D E).
  - change (h ++ "."%byte :: c ++ "."%byte :: s ++ [x]) with (h ++ ("."%byte :: c) ++ ("."%byte :: s) ++ [x]) in E. rewrite !app_assoc in E. apply app_inj_tail in E. destruct E as [_ E].
    subst b. apply N. apply (encode_alphabet (lib_mac L alg secret (h ++ "."%byte :: c))). rewrite <- S. apply in_or_app. right. left. reflexivity.
Qed.
End Lib.
