(** Keys, tokens and URL validation. *)
From Coq Require Import NArith ZArith List Bool Lia.
From Coq Require Import Init.Byte Strings.Byte.
From Verif.Model Require Import Base Map Text Auth.
From Verif.Spec Require Import AuthSpec.
From Verif.Proofs Require Import BaseP MapP TextP.
Import ListNotations.
Open Scope nat_scope.

Lemma starts_slash p : starts [slash] p <-> exists r, p = slash :: r.
Proof. unfold starts. cbn. reflexivity. Qed.

Lemma trimmed_trim url : trimmed url (trim_start slash url).
Proof.
  destruct (trim_start_split slash url) as [n E]. exists n. split; [exact E|].
  rewrite starts_slash. intros [r H]. exact (trim_start_hd _ _ _ H).
Qed.
Lemma trimmed_unique url p : trimmed url p -> p = trim_start slash url.
Proof.
  intros (n & -> & H). rewrite trim_start_unique; [reflexivity|]. intros r E. apply H. apply starts_slash. exists r. exact E.
Qed.

Definition parts (p : bytes) : bytes * bytes := match rsplit_once slash p with Some x => x | None => ([], p) end.
Lemma parts_spec p : dir_last p (fst (parts p)) (snd (parts p)).
Proof.
  unfold parts, dir_last. destruct (rsplit_once slash p) as [[x y]|] eqn:E.
  - left. apply rsplit_some, E.
  - right. cbn. repeat split. apply rsplit_none, E.
Qed.
Lemma parts_unique p d l : dir_last p d l -> parts p = (d, l).
Proof.
  unfold parts. intros [H|(-> & -> & H)].
  - apply rsplit_some in H. rewrite H. reflexivity.
  - apply rsplit_none in H. rewrite H. reflexivity.
Qed.

Lemma parts_exist a url : exists p dir last k, trimmed url p /\ dir_last p dir last /\ guarding a dir k.
Proof.
  exists (trim_start slash url). set (p := trim_start slash url). exists (fst (parts p)), (snd (parts p)).
  exists (match lookup (fst (parts p)) (au_paths a) with Some k => k | None => au_key a end).
  split; [apply trimmed_trim|]. split; [apply parts_spec|]. unfold guarding.
  destruct (lookup (fst (parts p)) (au_paths a)); auto.
Qed.

Lemma guarding_eq a dir k : guarding a dir k -> match lookup dir (au_paths a) with Some k => k | None => au_key a end = k.
Proof. intros [->|[-> ->]]; reflexivity. Qed.

Lemma permits_eq k o : existsb (operation_eqb o) (k_ops k) = true <-> permits k o.
Proof.
  unfold permits. rewrite existsb_exists. split.
  - intros (x & H & E). destruct o, x; try discriminate E; exact H.
  - intros H. exists o. split; [exact H|destruct o; reflexivity].
Qed.
Lemma permits_neq k o : existsb (operation_eqb o) (k_ops k) = false <-> ~ permits k o.
Proof. rewrite <- permits_eq. destruct (existsb _ _); intuition congruence. Qed.

Lemma verify_spec j k token t : key_verify j k token = Some t <-> accepted j k token t.
Proof.
  unfold key_verify, accepted. destruct (existsb (operation_eqb OpVerify) (k_ops k)) eqn:E.
  - apply permits_eq in E. tauto.
  - apply permits_neq in E. split; [discriminate|tauto].
Qed.
Lemma sign_spec j k p s : key_sign j k p = Some s <-> permits k OpSign /\ jwt_encode j (k_alg k) (k_kid k) (k_secret k) p = Some s.
Proof.
  unfold key_sign. destruct (existsb (operation_eqb OpSign) (k_ops k)) eqn:E.
  - apply permits_eq in E. tauto.
  - apply permits_neq in E. split; [discriminate|tauto].
Qed.

Lemma validate_eq j a url p dir last k : trimmed url p -> dir_last p dir last -> guarding a dir k ->
  validate j a url =
  match strip_suffix dot_jwt last with
  | Some token =>
      match k with
      | None => Panic
      | Some k =>
          match key_verify j k token with
          | None => Val None
          | Some t => Val (Some (Payload (dir ++ pl_path t) (pl_publish t) (pl_force t) (pl_subscribe t) (pl_expires t) (pl_issued t)))
          end
      end
  | None => match k with Some _ => Val None | None => Val (Some (Payload p (Some []) None (Some []) None None)) end
  end.
Proof.
  intros T D G. unfold validate. apply trimmed_unique in T. rewrite <- T. apply parts_unique in D. unfold parts in D. rewrite D.
  rewrite (guarding_eq a dir k G). reflexivity.
Qed.

Lemma moved_eq dir t out : moved dir t out <->
  out = Payload (dir ++ pl_path t) (pl_publish t) (pl_force t) (pl_subscribe t) (pl_expires t) (pl_issued t).
Proof.
  unfold moved. split; [|intros ->; cbn; tauto]. destruct out. cbn. intros (-> & -> & -> & -> & -> & ->). reflexivity.
Qed.
Lemma all_below_eq p out : all_below p out <-> out = Payload p (Some []) None (Some []) None None.
Proof.
  unfold all_below. split; [|intros ->; cbn; tauto]. destruct out. cbn. intros (-> & -> & -> & -> & -> & ->). reflexivity.
Qed.

Lemma ends_jwt l : ends dot_jwt l <-> exists token, strip_suffix dot_jwt l = Some token.
Proof. unfold ends. split; intros [r H]; exists r; apply strip_suffix_some; exact H. Qed.

Lemma validate_granted j a url p dir last k out : trimmed url p -> dir_last p dir last -> guarding a dir k ->
  (validate j a url = Val (Some out) <->
   (exists key token t, k = Some key /\ last = token ++ dot_jwt /\ accepted j key token t /\ moved dir t out) \/
   (k = None /\ ~ ends dot_jwt last /\ all_below p out)).
Proof.
  intros T D G. rewrite (validate_eq j a url p dir last k T D G).
  destruct (strip_suffix dot_jwt last) as [token|] eqn:S.
  - apply strip_suffix_some in S. split.
    + destruct k as [key|]; [|discriminate]. destruct (key_verify j key token) as [t|] eqn:V; [|discriminate].
      intros H. injection H as H. left. exists key, token, t. split; [reflexivity|]. split; [exact S|].
      split; [apply verify_spec, V|apply moved_eq; symmetry; exact H].
    + intros [(key & token' & t & -> & E & A & M)|(_ & N & _)].
      * rewrite S in E. apply app_inv_tail in E. subst token'. apply verify_spec in A. rewrite A. apply moved_eq in M. rewrite M. reflexivity.
      * destruct N. exists token. exact S.
  - assert (N : ~ ends dot_jwt last) by (rewrite ends_jwt; intros [x H]; congruence). split.
    + destruct k; [discriminate|]. intros H. injection H as H. right. split; [reflexivity|]. split; [exact N|]. apply all_below_eq. symmetry. exact H.
    + intros [(key & token' & t & _ & E & _)|(-> & _ & B)].
      * destruct N. exists token'. exact E.
      * apply all_below_eq in B. rewrite B. reflexivity.
Qed.

Lemma validate_panics j a url p dir last k : trimmed url p -> dir_last p dir last -> guarding a dir k ->
  (validate j a url = Panic <-> k = None /\ ends dot_jwt last).
Proof.
  intros T D G. rewrite (validate_eq j a url p dir last k T D G), ends_jwt. destruct (strip_suffix dot_jwt last) as [token|].
  - destruct k as [key|].
    + destruct (key_verify j key token); split; (discriminate || (intros [? _]; discriminate)).
    + split; [|reflexivity]. intros _. split; [reflexivity|]. exists token. reflexivity.
  - split; [destruct k; discriminate|]. intros [_ [t H]]. discriminate.
Qed.

(** ** Confinement *)
Lemma starts_app pre a b : starts pre (a ++ b) -> length pre <= length a -> starts pre a.
Proof.
  intros [r H] L. exists (skipn (length pre) a). rewrite <- (firstn_skipn (length pre) a) at 1. f_equal.
  apply (f_equal (firstn (length pre))) in H. rewrite firstn_app in H. replace (length pre - length a) with 0 in H by lia.
  rewrite firstn_O, app_nil_r in H. rewrite H, firstn_app, Nat.sub_diag, firstn_O, app_nil_r, firstn_all. reflexivity.
Qed.
Lemma below_app dir q : below dir (dir ++ q) <-> q = [] \/ starts [slash] q.
Proof.
  unfold below, starts. split.
  - intros [H|[r H]].
    + left. rewrite <- (app_nil_r dir) in H at 2. apply app_inv_head in H. exact H.
    + right. rewrite <- app_assoc in H. apply app_inv_head in H. exists r. exact H.
  - intros [->|[r ->]]; [left; apply app_nil_r|right]. exists r. rewrite <- app_assoc. reflexivity.
Qed.

Lemma confined_exact dir t out : moved dir t out ->
  ((forall x, reaches out x -> below dir x) <->
   (forall scope, pl_publish t = Some scope \/ pl_subscribe t = Some scope -> starts [slash] (pl_path t ++ scope)) /\
   (forall f, pl_force t = Some f -> pl_path t ++ f = [] \/ starts [slash] (pl_path t ++ f))).
Proof.
  intros M. apply moved_eq in M. subst out. unfold reaches. cbn. split.
  - intros H. split.
    + intros scope S.
      assert (B : below dir (dir ++ (pl_path t ++ scope) ++ [x61])).
      { apply H. left. exists scope. split; [exact S|]. exists [x61]. rewrite !app_assoc. reflexivity. }
      apply below_app in B. destruct B as [B|B]; [destruct (pl_path t ++ scope); discriminate|].
      destruct (pl_path t ++ scope) as [|c r] eqn:E.
      * destruct B as [r B]. discriminate B.
      * apply starts_app in B; [exact B|cbn; lia].
    + intros f F. apply (proj1 (below_app dir (pl_path t ++ f))). apply H. right. exists f. split; [exact F|]. rewrite app_assoc. reflexivity.
  - intros [H1 H2] x [(scope & S & r & ->)|(f & F & ->)]; rewrite <- !app_assoc; apply below_app.
    + right. destruct (H1 scope S) as [q Q]. exists (q ++ r). rewrite app_assoc, Q. reflexivity.
    + apply H2, F.
Qed.

Lemma root_token_floats j a key token t dir : au_key a = Some key -> accepted j key token t -> ~ In slash token ->
  dir <> [] -> ~ starts [slash] dir -> lookup dir (au_paths a) = None ->
  exists out, validate j a (slash :: dir ++ slash :: token ++ dot_jwt) = Val (Some out) /\ moved dir t out.
Proof.
  intros K A NS ND NH NL.
  set (out := Payload (dir ++ pl_path t) (pl_publish t) (pl_force t) (pl_subscribe t) (pl_expires t) (pl_issued t)).
  exists out. assert (M : moved dir t out) by (apply moved_eq; reflexivity). split; [|exact M].
  apply (validate_granted j a _ (dir ++ slash :: token ++ dot_jwt) dir (token ++ dot_jwt) (Some key)).
  - exists 1. split; [reflexivity|]. intros H. apply NH. apply (starts_app [slash] dir _ H). destruct dir; [congruence|cbn; lia].
  - left. split; [reflexivity|]. rewrite in_app_iff. intros [H|H]; [exact (NS H)|]. cbn in H. repeat (destruct H as [H|H]; [discriminate H|]). exact H.
  - right. split; [exact NL|congruence].
  - left. exists key, token, t. auto.
Qed.

(** Every key of a loaded configuration can verify. *)
Lemma load_key_verify file name k : load_key file name = Some (Some k) -> permits k OpVerify.
Proof.
  unfold load_key. destruct name as [[|b n]|]; try discriminate. destruct (file (b :: n)) as [k'|]; [|discriminate].
  destruct (existsb (operation_eqb OpVerify) (k_ops k')) eqn:E; [|discriminate]. intros H. injection H as <-. apply permits_eq, E.
Qed.
Lemma load_paths_verify file l acc ps : load_paths file l acc = Some ps ->
  (forall d k, lookup d acc = Some (Some k) -> permits k OpVerify) ->
  forall d k, lookup d ps = Some (Some k) -> permits k OpVerify.
Proof.
  revert acc. induction l as [|[path name] l IH]; intros acc; cbn [load_paths].
  - intros H. injection H as <-. auto.
  - destruct (load_key file (Some name)) as [k0|] eqn:L; [|discriminate]. intros H A. apply (IH _ H).
    intros d k. rewrite lookup_put. destruct (str_eqb d path).
    + intros Q. injection Q as ->. exact (load_key_verify _ _ _ L).
    + apply A.
Qed.
Lemma auth_new_verify file c a : auth_new file c = Some a ->
  forall dir k, guarding a dir (Some k) -> permits k OpVerify.
Proof.
  unfold auth_new. destruct (load_key file (ac_key c)) as [k0|] eqn:L; [|discriminate].
  destruct (load_paths file (ac_path c) []) as [ps|] eqn:P; [|discriminate]. intros H. injection H as <-.
  intros dir k [G|[_ G]]; cbn in G.
  - refine (load_paths_verify _ _ _ _ P _ _ _ G). intros d k' Q. discriminate Q.
  - subst k0. exact (load_key_verify _ _ _ L).
Qed.
(** The keys are those of the files. *)
Lemma load_paths_lookup file l acc ps : NoDup (map fst l) -> load_paths file l acc = Some ps ->
  forall d, lookup d ps = match lookup d l with
                          | Some name => load_key file (Some name)
                          | None => lookup d acc
                          end.
Proof.
  revert acc. induction l as [|[path name] l IH]; intros acc ND; cbn [load_paths].
  - intros H d. injection H as <-. reflexivity.
  - inversion_clear ND as [|? ? NI ND']. destruct (load_key file (Some name)) as [k0|] eqn:L; [|discriminate]. intros H d.
    rewrite (IH _ ND' H d). cbn [lookup fst]. destruct (str_eqb_spec d path) as [->|N].
    + destruct (lookup path l) eqn:Q.
      * destruct NI. apply in_map_iff. exists (path, b). split; [reflexivity|apply lookup_In, Q].
      * rewrite lookup_put, str_eqb_refl. symmetry. exact L.
    + destruct (lookup d l); [reflexivity|]. rewrite lookup_put. destruct (str_eqb_spec d path); [congruence|reflexivity].
Qed.
Lemma load_key_total file name k : load_key file name = Some k ->
  match k with
  | None => name = None \/ name = Some []
  | Some k => exists n, name = Some n /\ n <> [] /\ file n = Some k
  end.
Proof.
  unfold load_key. destruct name as [[|b n]|]; try (intros H; injection H as <-; auto).
  destruct (file (b :: n)) as [k'|] eqn:F; [|discriminate]. destruct (existsb _ _); [|discriminate].
  intros H. injection H as <-. exists (b :: n). repeat split; [discriminate|exact F].
Qed.
Lemma auth_new_keys file c a : NoDup (map fst (ac_path c)) -> auth_new file c = Some a ->
  forall dir k, guarding a dir k ->
  let name := match lookup dir (ac_path c) with Some n => Some n | None => ac_key c end in
  match k with
  | None => name = None \/ name = Some []
  | Some k => exists n, name = Some n /\ n <> [] /\ file n = Some k
  end.
Proof.
  intros ND. unfold auth_new. destruct (load_key file (ac_key c)) as [k0|] eqn:L; [|discriminate].
  destruct (load_paths file (ac_path c) []) as [ps|] eqn:P; [|discriminate]. intros H. injection H as <-.
  intros dir k G. assert (Q := load_paths_lookup _ _ _ _ ND P dir). unfold guarding in G. cbn [au_paths au_key] in G.
  destruct (lookup dir (ac_path c)) as [name|] eqn:E; cbn.
  - destruct G as [G|[G _]]; rewrite Q in G.
    + apply (load_key_total file (Some name)). exact G.
    + exfalso. assert (X : forall l acc, load_paths file l acc <> None -> forall n, lookup dir l = Some n -> NoDup (map fst l) -> load_key file (Some n) <> None).
      { induction l as [|[p' n'] l IH]; [discriminate|]. intros acc. cbn [load_paths lookup]. destruct (load_key file (Some n')) as [k'|] eqn:L'; [|congruence].
        intros N n S D. inversion_clear D. destruct (str_eqb dir p'); [injection S as <-; congruence|]. exact (IH _ N _ S H0). }
      apply (X (ac_path c) []) with (n := name); [congruence|exact E|exact ND|exact G].
  - destruct G as [G|[_ G]]; [rewrite Q in G; discriminate G|]. subst k. apply (load_key_total file (ac_key c)). exact L.
Qed.

(** ** moq-token *)
Lemma algorithm_roundtrip s a : algorithm_parse s = Some a <-> s = algorithm_show a.
Proof.
  unfold algorithm_parse. split.
  - repeat match goal with |- context [str_eqb ?x ?y] => destruct (str_eqb_spec x y) as [->|] end; intros H; try discriminate; injection H as <-; reflexivity.
  - intros ->. destruct a; reflexivity.
Qed.

Lemma timestamp_spec s t : parse_timestamp s = Some t <->
  exists ds, is_digits ds /\ t = Z.of_N (decimal ds) /\ (decimal ds < 2 ^ 63)%N /\
    (s = ascii_digits ds \/ s = x2b :: ascii_digits ds \/ (t = 0%Z /\ s = x2d :: ascii_digits ds)).
Proof.
  unfold parse_timestamp, parse_i64, decimal, ascii_digits, is_digits. destruct (strip_sign_spec x2d s) as [[E H]|[E H]].
  - rewrite E, Nat.eqb_refl.
    assert (NM : forall ds : list N, ds <> [] -> Forall (fun d => d < 10)%N ds -> s <> x2d :: map (fun d => u8 (48 + d)) ds).
    { intros ds NE _ ->. destruct ds as [|d ds]; [congruence|]. cbn in H. destruct H as [H|H]; [lia|congruence]. }
    split.
    + destruct (parse_uint 10 (2 ^ 63 - 1) s) as [v|] eqn:P; [|discriminate].
      replace (0 <=? Z.of_N v)%Z with true by (symmetry; apply Z.leb_le; lia). intros Q. injection Q as <-.
      apply parse_uint_some in P. destruct P as [L (u & NE & U & D)]. apply digits10 in D. destruct D as (ds & F & -> & V).
      exists ds. split; [split; [destruct ds; [exfalso; apply NE; reflexivity|discriminate]|exact F]|]. rewrite V. split; [reflexivity|]. split; [lia|].
      destruct U as [U|U]; auto.
    + intros (ds & [NE F] & T & L & S). set (v := fold_left (fun a d => a * 10 + d)%N ds 0%N) in *.
      assert (P : parse_uint 10 (2 ^ 63 - 1) s = Some v).
      { apply parse_uint_some. split; [lia|]. exists (map (fun d => u8 (48 + d)) ds). split; [destruct ds; [congruence|discriminate]|].
        split; [|apply digits10; exists ds; auto]. destruct S as [S|[S|[_ S]]]; auto. destruct (NM ds NE F S). }
      rewrite P. replace (0 <=? Z.of_N v)%Z with true by (symmetry; apply Z.leb_le; lia). congruence.
  - set (r := strip_sign x2d s) in *. replace (Nat.eqb (length r) (length s)) with false
      by (symmetry; apply Nat.eqb_neq; rewrite E; cbn; lia).
    assert (NP : s <> [] /\ hd_error s = Some x2d) by (rewrite E; split; [discriminate|reflexivity]).
    assert (HD : forall ds : list N, Forall (fun d => d < 10)%N ds -> s <> map (fun d => u8 (48 + d)) ds).
    { intros ds F Q. destruct ds as [|d ds]; [rewrite Q in E; discriminate|]. inversion_clear F.
      rewrite E in Q. apply (f_equal (hd x00)) in Q. cbn [hd map] in Q. apply (f_equal n_of) in Q. rewrite n_of_small in Q by lia. change (n_of x2d) with 45%N in Q. lia. }
    split.
    + destruct (digits 10 0 r) as [v|] eqn:D; [|discriminate]. destruct (N.leb_spec v (2 ^ 63)); [|discriminate].
      destruct (Z.leb_spec 0 (- Z.of_N v)); [|discriminate]. intros Q. injection Q as <-. assert (v = 0)%N by lia. subst v.
      apply digits10 in D. destruct D as (ds & F & R & V). exists ds. split; [split; [intros ->; cbn in R; congruence|exact F]|].
      rewrite V. split; [reflexivity|]. split; [reflexivity|]. right. right. split; [reflexivity|]. rewrite E, R. reflexivity.
    + intros (ds & [NE F] & T & L & [S|[S|[T0 S]]]).
      * destruct (HD ds F S).
      * rewrite E in S. discriminate S.
      * rewrite E in S. apply (f_equal (@tl _)) in S. cbn [tl] in S.
        assert (V : fold_left (fun a d => a * 10 + d)%N ds 0%N = 0%N) by lia.
        rewrite (proj2 (digits10 r 0 0%N)) by (exists ds; auto). cbn. congruence.
Qed.
