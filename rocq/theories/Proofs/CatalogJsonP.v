(** Catalogs and feedback as JSON. *)
From Coq Require Import NArith Arith.
From Coq Require Import Strings.String.
From Coq Require Import List Lia Bool.
From Coq Require Import Init.Byte Strings.Byte.
From Verif.Model Require Import Base Map Text Codec Json Native Catalog CatalogJson.
From Verif.Spec Require Import CodingSpec CodecSpec NativeSpec JsonSpec CatalogJsonSpec.
From Verif.Proofs Require Import BaseP MapP TextP CodecAv1P NativeP JsonP.
Import ListNotations.
Open Scope N_scope.
Local Notation length := List.length.

Lemma gbind_got {A B} (x : got A) (f : A -> got B) b : gbind x f = Got b <-> exists a, x = Got a /\ f a = Got b.
Proof.
  destruct x as [a| |]; cbn; [|split; [discriminate|intros (a & H & _); discriminate]..].
  split; [intros H; exists a; auto|]. intros (a' & H & E). injection H as <-. exact E.
Qed.
Lemma gmap_got {A B} (f : A -> B) (x : got A) b : gmap f x = Got b <-> exists a, x = Got a /\ b = f a.
Proof.
  unfold gmap. rewrite gbind_got. split; intros (a & H & E); exists a; (split; [exact H|]); [injection E as <-; reflexivity|congruence].
Qed.
Lemma of_option_got {A} (x : option A) a : of_option x = Got a <-> x = Some a.
Proof. destruct x; cbn; split; congruence. Qed.

(** ** Structures *)
Section Struct.
Variable fields : list (bytes * (json -> got unit)).
Let names := map fst fields.
Hypothesis ND : NoDup names.

Definition keep (es : list (option bytes * json)) : list (bytes * json) :=
  flat_map (fun e => match fst e with
                     | Some k => match known k fields with Some _ => [(k, snd e)] | None => [] end
                     | None => [] end) es.
Lemma known_in k f : known k fields = Some f -> In (k, f) fields.
Proof.
  clear ND names. induction fields as [|[n g] r IH]; cbn; [discriminate|]. destruct (str_eqb_spec k n) as [->|]; [intros [= ->]; auto|auto].
Qed.
Lemma known_none k : known k fields = None <-> ~ In k names.
Proof.
  unfold names. clear. induction fields as [|[n g] r IH]; cbn; [tauto|]. destruct (str_eqb_spec k n) as [->|N].
  - split; [discriminate|]. tauto.
  - rewrite IH. intuition congruence.
Qed.
Lemma known_some k f : In (k, f) fields -> known k fields = Some f.
Proof.
  unfold names in ND. clear names. induction fields as [|[n g] r IH]; cbn in *; [tauto|]. inversion ND as [|? ? X Y]; subst. intros [[= -> ->]|H].
  - rewrite str_eqb_refl. reflexivity.
  - destruct (str_eqb_spec k n) as [->|N]; [|auto]. destruct X. apply (in_map fst) in H. exact H.
Qed.
Lemma keep_in k x es : In (k, x) (keep es) <-> In (Some k, x) es /\ In k names.
Proof.
  unfold keep. rewrite in_flat_map. split.
  - intros ([[k'|] y] & I & H); cbn in H; [|destruct H]. destruct (known k' fields) eqn:E; [|destruct H].
    destruct H as [[= -> ->]|[]]. split; [exact I|]. apply known_in in E. apply (in_map fst) in E. exact E.
  - intros [I H]. exists (Some k, x). split; [exact I|]. cbn. destruct (known k fields) eqn:E; [left; reflexivity|]. apply known_none in E. contradiction.
Qed.

Lemma seen_spec k seen : existsb (str_eqb k) seen = true <-> In k seen.
Proof.
  rewrite existsb_exists. split; [intros (x & I & H)|intros I; exists k; split; [exact I|apply str_eqb_refl]].
  destruct (str_eqb_spec k x); [congruence|discriminate].
Qed.
Lemma walk_iff es : forall seen l, walk fields seen es = Got l <->
  Forall (fun e => fst e <> None) es /\ l = keep es /\ NoDup (map fst l) /\ (forall k, In k (map fst l) -> ~ In k seen) /\
  (forall k x f, In (k, x) l -> In (k, f) fields -> f x = Got tt).
Proof.
  induction es as [|[[k|] v] es IH]; intros seen l; cbn [walk keep flat_map].
  - split; [intros [= <-]; repeat split; try constructor; cbn in *; tauto|]. intros (_ & -> & _). reflexivity.
  - fold (keep es). cbn [fst snd]. destruct (known k fields) as [f|] eqn:K.
    + destruct (existsb (str_eqb k) seen) eqn:S.
      * split; [discriminate|]. intros (_ & -> & _ & D & _). apply seen_spec in S. destruct (D k); [left; reflexivity|exact S].
      * assert (S' : ~ In k seen) by (rewrite <- seen_spec; congruence).
        rewrite gbind_got. cbn [app]. split.
        -- intros ([] & F & H). apply gbind_got in H. destruct H as (l' & W & [= <-]). apply IH in W. destruct W as (A & -> & N & D & R).
           split; [constructor; [discriminate|exact A]|]. split; [reflexivity|]. split; [|split].
           ++ cbn. constructor; [|exact N]. intros I. apply (D _ I). left. reflexivity.
           ++ cbn. intros k' [<-|I]; [exact S'|]. intros J. apply (D _ I). right. exact J.
           ++ intros k' x f' [[= <- <-]|I] J; [|eauto]. rewrite (known_some _ _ J) in K. injection K as ->. exact F.
        -- intros (A & -> & N & D & R). cbn in N, D. inversion N as [|? ? N1 N2]; subst. inversion A; subst. exists tt. split.
           ++ apply (R k v f); [left; reflexivity|apply known_in; exact K].
           ++ apply gbind_got. exists (keep es). split; [|reflexivity]. apply IH. split; [assumption|]. split; [reflexivity|]. split; [exact N2|]. split.
              ** intros k' I [<-|J]; [auto|]. apply (D k'); auto.
              ** intros k' x f' I J. apply (R k' x f'); [right; exact I|exact J].
    + cbn [app]. rewrite IH. split; intros (A & R); (split; [|exact R]); [constructor; [discriminate|exact A]|inversion A; assumption].
  - split; [discriminate|]. intros (A & _). inversion A as [|? ? X]; subst. destruct (X eq_refl).
Qed.

Lemma get_in k x l : NoDup (map fst l) -> get k l = Some x <-> In (k, x) l.
Proof.
  induction l as [|[n v] l IH]; cbn; [split; [discriminate|tauto]|]. intros N. inversion N as [|? ? X Y]; subst.
  destruct (str_eqb_spec k n) as [->|D].
  - split; [intros [= ->]; auto|]. intros [[= ->]|I]; [reflexivity|]. destruct X. apply (in_map fst) in I. exact I.
  - rewrite (IH Y). split; [auto|]. intros [[= -> _]|I]; [congruence|exact I].
Qed.

Definition once (es : list (option bytes * json)) : Prop := forall i j k a b,
  nth_error es i = Some (Some k, a) -> nth_error es j = Some (Some k, b) -> In k names -> i = j.
Lemma once_keep es : NoDup (map fst (keep es)) <-> once es.
Proof.
  induction es as [|[[k|] v] es IH].
  - split; [intros _ [|] ? ? ? ? H; discriminate|constructor].
  - change (keep ((Some k, v) :: es)) with ((match known k fields with Some _ => [(k, v)] | None => [] end) ++ keep es).
    destruct (known k fields) as [f|] eqn:K; cbn [app map fst].
    + assert (KN : In k names) by (apply known_in in K; apply (in_map fst) in K; exact K). split.
      * intros N. inversion N as [|? ? X Y]; subst. apply IH in Y. intros [|i] [|j] k' a b A B I; cbn in A, B; [reflexivity| | |].
        -- injection A as -> <-. destruct X. apply in_map_iff. exists (k', b). split; [reflexivity|]. apply keep_in. split; [eapply nth_error_In; exact B|exact I].
        -- injection B as -> <-. destruct X. apply in_map_iff. exists (k', a). split; [reflexivity|]. apply keep_in. split; [eapply nth_error_In; exact A|exact I].
        -- f_equal. eapply Y; eauto.
      * intros O. constructor.
        -- intros I. apply in_map_iff in I. destruct I as ([k' x] & <- & I). apply keep_in in I. destruct I as [I _].
           apply In_nth_error in I. destruct I as [i I]. discriminate (O 0%nat (S i) _ v x eq_refl I KN).
        -- apply IH. intros i j k' a b A B I. specialize (O (S i) (S j) k' a b A B I). congruence.
    + assert (KN : ~ In k names) by (apply known_none; exact K). rewrite IH. split.
      * intros O [|i] [|j] k' a b A B I; cbn in A, B; [reflexivity|injection A as -> _; contradiction|injection B as -> _; contradiction|f_equal; eapply O; eauto].
      * intros O i j k' a b A B I. specialize (O (S i) (S j) k' a b A B I). congruence.
  - change (keep ((None, v) :: es)) with (keep es). rewrite IH. split.
    + intros O [|i] [|j] k' a b A B I; cbn in A, B; try discriminate. f_equal. eapply O; eauto.
    + intros O i j k' a b A B I. specialize (O (S i) (S j) k' a b A B I). congruence.
Qed.

Lemma keep_combine vs : forall pre post, fields = pre ++ post -> (length vs <= length post)%nat ->
  keep (combine (map Some (map fst post)) vs) = combine (map fst post) vs.
Proof.
  induction vs as [|v vs IH]; intros pre [|[n f] post] E L; cbn in L; try lia; try reflexivity.
  cbn [map fst combine]. change (keep ((Some n, v) :: combine (map Some (map fst post)) vs)) with
    ((match known n fields with Some _ => [(n, v)] | None => [] end) ++ keep (combine (map Some (map fst post)) vs)).
  rewrite (known_some n f) by (rewrite E; apply in_or_app; right; left; reflexivity). cbn [app]. f_equal.
  apply (IH (pre ++ [(n, f)])); [rewrite <- app_assoc; exact E|lia].
Qed.
Lemma keep_all vs : (length vs <= length names)%nat -> keep (combine (map Some names) vs) = combine names vs.
Proof. intros L. apply (keep_combine vs [] fields eq_refl). unfold names in L. rewrite map_length in L. exact L. Qed.
Lemma combine_nth {A B} (l : list A) (m : list B) : forall i a b,
  nth_error (combine l m) i = Some (a, b) <-> nth_error l i = Some a /\ nth_error m i = Some b.
Proof.
  revert m. induction l as [|x l IH]; intros [|y m] [|i] a b; cbn; try (intuition discriminate).
  - intuition congruence.
  - apply IH.
Qed.

Lemma combine_nodup {A B} (l : list A) (m : list B) : NoDup l -> NoDup (map fst (combine l m)).
Proof.
  revert m. induction l as [|x l IH]; intros [|y m] N; cbn; try constructor; inversion N as [|? ? X Y]; subst; [|auto].
  intros I. apply X. apply in_map_iff in I. destruct I as ([a b] & <- & I). apply in_combine_l in I. exact I.
Qed.

Variable least : nat.
Definition short_or_long (vs : list json) : bool := Nat.ltb (length vs) least || Nat.ltb (length names) (length vs).

Lemma obj_wf es k : wf (JObj es) -> forall e, In e es -> string_of (fst e) = Some k <-> text_of (fst e) k.
Proof. intros W e I. inversion W as [| | | | |? F]; subst. rewrite Forall_forall in F. apply string_of_exact. apply F. exact I. Qed.

Theorem struct_got v l : wf v -> struct fields least v = Got l ->
  structure names least v /\ forall k x, In k names -> get k l = Some x <-> holds names v k x.
Proof.
  intros W H. unfold struct in H. fold names in H. unfold struct_members in H. destruct v as [|b|t|r|vs|es]; try discriminate.
  - apply walk_iff in H. destruct H as (F & -> & N & _). apply Forall_app in F. destruct F as [_ F].
    destruct (Nat.ltb_spec (length vs) least) as [L1|L1]; [inversion F as [|? ? X]; destruct (X eq_refl)|].
    destruct (Nat.ltb_spec (length names) (length vs)) as [L2|L2]; [inversion F as [|? ? X]; destruct (X eq_refl)|].
    split; [cbn; lia|]. intros k x I. rewrite get_in by exact N. rewrite app_nil_r.
    rewrite keep_all by exact L2. cbn [holds].
    split.
    + intros J. apply In_nth_error in J. destruct J as [i J]. apply combine_nth in J. exists i. exact J.
    + intros (i & J). apply combine_nth in J. eapply nth_error_In. exact J.
  - apply walk_iff in H. destruct H as (F & -> & N & _). assert (O := proj1 (once_keep _) N). split.
    + cbn. split.
      * apply Forall_forall. intros e I. rewrite Forall_forall in F. specialize (F (string_of (fst e), snd e) ltac:(apply (in_map (fun e => (string_of (fst e), snd e))); exact I)).
        cbn in F. destruct (string_of (fst e)) as [k|] eqn:S; [|congruence]. exists k. apply (obj_wf es k W e I). exact S.
      * intros i j e f k A B TA TB I. apply string_of_complete in TA, TB.
        apply (O i j k (snd e) (snd f)); [| |exact I].
        -- rewrite nth_error_map, A. cbn. rewrite TA. reflexivity.
        -- rewrite nth_error_map, B. cbn. rewrite TB. reflexivity.
    + intros k x I. rewrite get_in by exact N. rewrite keep_in. cbn [holds]. split.
      * intros [J _]. apply in_map_iff in J. destruct J as ([raw y] & E & J). cbn in E. injection E as E <-. exists raw. split; [exact J|].
        apply (obj_wf es k W (raw, y) J). exact E.
      * intros (raw & J & T). split; [|exact I]. apply in_map_iff. exists (raw, x). split; [|exact J]. cbn. rewrite (string_of_complete _ _ T). reflexivity.
Qed.
Theorem struct_total v : wf v -> structure names least v ->
  (forall k f x, In (k, f) fields -> holds names v k x -> f x = Got tt) -> exists l, struct fields least v = Got l.
Proof.
  intros W S R. unfold struct. fold names. unfold struct_members. destruct v as [|b|t|r|vs|es]; cbn in S; try contradiction.
  - assert (short_or_long vs = false) as B.
    { unfold short_or_long. apply orb_false_iff. split; apply Nat.ltb_ge; lia. }
    unfold short_or_long in B. rewrite B, app_nil_r. eexists. apply walk_iff. split; [|split; [reflexivity|]].
    + apply Forall_forall. intros [k x] I. apply in_combine_l in I. apply in_map_iff in I. destruct I as (n & <- & _). discriminate.
    + rewrite keep_all by apply S.
      split; [|split; [intros ? ? []|]].
      * apply combine_nodup. exact ND.
      * intros k x f I J. apply (R k f x J). cbn [holds]. apply In_nth_error in I. destruct I as [i I]. exists i. apply combine_nth. exact I.
  - destruct S as [T O]. eexists. apply walk_iff. split; [|split; [reflexivity|split; [|split; [intros ? ? []|]]]].
    + apply Forall_forall. intros e I. apply in_map_iff in I. destruct I as (e' & <- & I). rewrite Forall_forall in T. destruct (T e' I) as [k K].
      cbn. rewrite (string_of_complete _ _ K). discriminate.
    + apply once_keep. intros i j k a b A B I. rewrite nth_error_map in A, B. destruct (nth_error es i) as [e|] eqn:E1; [|discriminate]. destruct (nth_error es j) as [f|] eqn:E2; [|discriminate].
      cbn in A, B. injection A as A _. injection B as B _. apply (O i j e f k); auto.
      * apply (obj_wf es k W e); [eapply nth_error_In; eauto|exact A].
      * apply (obj_wf es k W f); [eapply nth_error_In; eauto|exact B].
    + intros k x f I J. apply keep_in in I. destruct I as [I _]. apply (R k f x J). apply in_map_iff in I. destruct I as ([raw y] & E & I). cbn in E. injection E as E <-.
      exists raw. split; [exact I|]. apply (obj_wf es k W (raw, y) I). exact E.
Qed.
Lemma holds_fun v k x y : structure names least v -> In k names -> holds names v k x -> holds names v k y -> x = y.
Proof.
  intros S I. destruct v as [|b|t|r|vs|es]; cbn in *; try contradiction.
  - intros (i & A & B) (j & C & D). rewrite NoDup_nth_error in ND. assert (i = j) as <-; [|congruence].
    apply ND; [apply nth_error_Some; congruence|congruence].
  - intros (r1 & A & B) (r2 & C & D). destruct S as [_ O]. apply In_nth_error in A, C. destruct A as [i A], C as [j C].
    assert (i = j) as <- by (eapply O; eauto). congruence.
Qed.
End Struct.

Lemma holds_wf names v k x : wf v -> holds names v k x -> wf x.
Proof.
  intros W H. destruct v as [|b|t|r|vs|es]; cbn in H; try contradiction.
  - destruct H as (i & _ & H). inversion W as [| | | |? F|]; subst. rewrite Forall_forall in F. apply F. eapply nth_error_In. exact H.
  - destruct H as (raw & H & _). inversion W as [| | | | |? F]; subst. rewrite Forall_forall in F. apply (F _ H).
Qed.

(** ** Fields *)
Definition reads {A} (f : json -> got A) (P : json -> A -> Prop) : Prop := forall v a, wf v -> f v = Got a <-> P v a.
Definition no_null {A} (f : json -> got A) : Prop := forall a, f JNull <> Got a.

Section Fields.
Context {A : Type} (f : json -> got A) (P : json -> A -> Prop) (R : reads f P).
Variables (names : list bytes) (v : json) (k : string).
Hypothesis W : wf v.
Section Got.
Variable l : list (bytes * json).
Hypothesis G : forall x, get (text k) l = Some x <-> holds names v (text k) x.
Lemma need_has a : need l (text k) f = Got a <-> has names v k P a.
Proof.
  unfold need, has. case_eq (get (text k) l); [intros x E|intros E].
  - apply G in E. assert (Wx := holds_wf _ _ _ _ W E). split.
    + intros H. exists x. split; [exact E|]. apply R; assumption.
    + intros (y & H & Py). apply G in E, H. assert (x = y) as -> by congruence. apply R; [exact Wx|exact Py].
  - split; [discriminate|]. intros (x & H & _). apply G in H. congruence.
Qed.
Lemma default_or d a : default l (text k) f d = Got a <-> or_else names v k P d a.
Proof.
  unfold or_else. rewrite <- need_has. unfold default, need. case_eq (get (text k) l); [intros x E|intros E].
  - split; [auto|]. intros [H|[H _]]; [exact H|]. apply G in E. destruct (H _ E).
  - split.
    + intros [= ->]. right. split; [|reflexivity]. intros x H. apply G in H. congruence.
    + intros [H|[_ ->]]; [discriminate|reflexivity].
Qed.
Hypothesis NN : no_null f.
Lemma opt_may o : opt l (text k) f = Got o <-> may names v k P o.
Proof.
  unfold opt, default, may. case_eq (get (text k) l); [intros x E|intros E].
  - assert (Ex := proj1 (G _) E). assert (Wx := holds_wf _ _ _ _ W Ex). unfold nullable. destruct o as [a|].
    + rewrite <- need_has. unfold need. rewrite E. assert (H : gmap Some (f x) = Got (Some a) <-> f x = Got a).
      { rewrite gmap_got. split; [intros (? & H & [= <-]); exact H|intros H; exists a; auto]. }
      destruct x; try exact H. split; [discriminate|]. intros C. destruct (NN _ C).
    + split.
      * intros H y Hy. apply G in Hy. assert (y = x) as -> by congruence. destruct x; [reflexivity|..]; apply gmap_got in H; destruct H as (? & _ & ?); discriminate.
      * intros H. rewrite (H x Ex). reflexivity.
  - destruct o as [a|].
    + split; [discriminate|]. intros (x & H & _). apply G in H. congruence.
    + split; [|reflexivity]. intros _ x H. apply G in H. congruence.
Qed.
End Got.
Hypothesis U : forall x y, holds names v (text k) x -> holds names v (text k) y -> x = y.
Lemma fld_has a x : has names v k P a -> holds names v (text k) x -> snd (fld k f) x = Got tt.
Proof.
  intros (y & H & Py) Hx. assert (x = y) as -> by auto. apply R in Py; [|exact (holds_wf _ _ _ _ W H)]. cbn. unfold gmap. rewrite Py. reflexivity.
Qed.
Lemma fld_or d a x : or_else names v k P d a -> holds names v (text k) x -> snd (fld k f) x = Got tt.
Proof. intros [H|[H _]] Hx; [eapply fld_has; eassumption|destruct (H _ Hx)]. Qed.
Lemma fld_may o x : may names v k P o -> holds names v (text k) x -> snd (fld k (nullable f)) x = Got tt.
Proof.
  destruct o as [a|]; cbn [may].
  - intros H Hx. apply (fld_has _ _ H) in Hx. cbn in *. unfold nullable. destruct x; [reflexivity|..]; destruct (f _); cbn in *; congruence.
  - intros H Hx. rewrite (H _ Hx). reflexivity.
Qed.
End Fields.


(** ** Leaves *)
Lemma reads_string : reads read_string is_string.
Proof.
  intros v s W. unfold read_string, is_string. destruct v as [|b|t|raw|vs|es]; try (split; [discriminate|intros (? & ? & _); discriminate]).
  rewrite of_option_got. inversion W; subst. rewrite string_of_exact by assumption. split; [intros T; exists raw; auto|intros (? & [= <-] & T); exact T].
Qed.
Lemma reads_uint max : reads (read_uint max) (is_uint max).
Proof.
  intros v n W. unfold read_uint, is_uint. destruct v as [|b|t|raw|vs|es]; try (split; [discriminate|intros (? & ? & _); discriminate]).
  rewrite of_option_got, uint_of_exact. split; [intros T; exists t; auto|intros (? & [= <-] & T); exact T].
Qed.
Lemma reads_bool : reads read_bool is_bool.
Proof. intros v b W. unfold read_bool, is_bool. destruct v; split; congruence. Qed.
Lemma reads_hex : reads read_hex is_hex.
Proof.
  intros v b W. unfold read_hex, is_hex. rewrite gbind_got. split; intros (s & A & B); exists s.
  - apply reads_string in A; [|exact W]. apply of_option_got, unhex_hexes in B. auto.
  - split; [apply reads_string; assumption|]. apply of_option_got, unhex_hexes. exact B.
Qed.
Lemma of_parsed_got {A} (x : parsed A) a : of_parsed x = Got a <-> x = Parsed a.
Proof. destruct x; cbn; split; congruence. Qed.
Lemma reads_video_codec u : reads (read_video_codec u) (is_video u).
Proof.
  intros v b W. unfold read_video_codec, is_video. rewrite gbind_got. split; intros (s & A & B); exists s; apply of_parsed_got in B || apply of_parsed_got in B.
  - apply reads_string in A; [|exact W]. auto.
  - split; [apply reads_string; assumption|]. exact B.
Qed.
Lemma reads_audio_codec : reads read_audio_codec is_audio.
Proof.
  intros v b W. unfold read_audio_codec, is_audio. rewrite gbind_got. split; intros (s & A & B); exists s; apply of_parsed_got in B || apply of_parsed_got in B.
  - apply reads_string in A; [|exact W]. auto.
  - split; [apply reads_string; assumption|]. exact B.
Qed.
Lemma reads_list {A} (f : json -> got A) P : reads f P -> reads (read_list f) (is_list P).
Proof.
  intros R v l W. unfold read_list, is_list. destruct v as [|b|t|raw|vs|es]; try (split; [discriminate|intros (? & ? & _); discriminate]).
  inversion W as [| | | |? F|]; subst. clear W. transitivity (Forall2 P vs l).
  - revert l. induction F as [|v vs Wv F IH]; intros l; cbn [each].
    + split; [intros [= <-]; constructor|inversion 1; reflexivity].
    + rewrite gbind_got. split.
      * intros (a & A1 & H). apply gbind_got in H. destruct H as (r & A2 & [= <-]). constructor; [apply R; assumption|apply IH; exact A2].
      * inversion 1 as [|? a ? r A1 A2]; subst. exists a. split; [apply R; assumption|]. apply gbind_got. exists r. split; [apply IH; exact A2|reflexivity].
  - split; [intros H; exists vs; auto|intros (? & [= <-] & H); exact H].
Qed.
Lemma latest_snoc {A} (l : list (N * A)) e : latest (l ++ [e]) = filter (fun f => negb (fst f =? fst e)) (latest l) ++ [e].
Proof.
  induction l as [|x l IH]; cbn; [reflexivity|]. rewrite existsb_app. cbn [existsb]. rewrite orb_false_r, IH.
  destruct (existsb (fun f => fst f =? fst x) l) eqn:E; cbn [orb]; [reflexivity|]. cbn [filter]. rewrite (N.eqb_sym (fst e)).
  destruct (fst x =? fst e); reflexivity.
Qed.
Lemma read_key_iff raw k : read_key raw = Some k <-> json_number raw /\ counts raw k /\ k <= u32_max.
Proof.
  unfold read_key. split.
  - intros H. destruct (read_number raw) as [[t [|]]|] eqn:E; try discriminate. apply read_number_sound in E. destruct E as [E N]. rewrite app_nil_r in E. subst t.
    apply uint_of_exact in H. auto.
  - intros (N & C). rewrite <- (app_nil_r raw). rewrite (read_number_complete raw [] N); [|exact I]. apply uint_of_exact. exact C.
Qed.
Lemma reads_map {A} (f : json -> got A) P : reads f P -> reads (read_map f) (is_map P).
Proof.
  intros R v m W. unfold read_map, is_map. destruct v as [|b|t|raw|vs|es]; try (split; [discriminate|intros (? & ? & ? & _); discriminate]).
  inversion W as [| | | | |? F]; subst. clear W.
  assert (H : forall acc, each_entry f es (latest acc) = Got m <-> exists l, m = latest (acc ++ l) /\
    Forall2 (fun e f => json_number (fst e) /\ counts (fst e) (fst f) /\ fst f <= u32_max /\ P (snd e) (snd f)) es l).
  { induction F as [|[raw x] es [Wr Wx] F IH]; intros acc; cbn [each_entry].
    - split; [intros [= <-]; exists []; rewrite app_nil_r; split; [reflexivity|constructor]|].
      intros (l & -> & H). inversion H; subst. rewrite app_nil_r. reflexivity.
    - cbn [fst snd] in *. rewrite gbind_got. split.
      + intros (k & K & H). apply gbind_got in H. destruct H as (a & Ha & H). apply of_option_got, read_key_iff in K.
        apply R in Ha; [|exact Wx]. unfold map_put in H. pose proof (latest_snoc acc (k, a)) as L. cbn [fst] in L. rewrite <- L in H.
        apply IH in H. destruct H as (l & -> & H). exists ((k, a) :: l). rewrite <- app_assoc. split; [reflexivity|]. constructor; [cbn; tauto|exact H].
      + intros (l & -> & H). inversion H as [|? [k a] ? l' (K1 & K2 & K3 & K4) H']; subst. cbn [fst snd] in *. exists k. split; [apply of_option_got, read_key_iff; auto|].
        apply gbind_got. exists a. split; [apply R; assumption|]. unfold map_put. pose proof (latest_snoc acc (k, a)) as L. cbn [fst] in L. rewrite <- L.
        apply IH. exists l'. rewrite <- app_assoc. auto. }
  specialize (H []). cbn [latest] in H. rewrite H. cbn [app]. split; [intros (l & E & G); exists es, l; auto|intros (? & l & [= <-] & G); exists l; exact G].
Qed.

(** ** Structures, field by field *)
Create HintDb reads.
#[export] Hint Resolve reads_string reads_uint reads_bool reads_hex reads_video_codec reads_audio_codec reads_list reads_map : reads.
Ltac no_null := intros ?; discriminate.
Ltac nodup := repeat constructor; let H := fresh in intros H; repeat (destruct H as [H|H]; [discriminate H|]); destruct H.
Ltac inb := cbn; repeat (first [left; reflexivity|right]).
Ltac read_field E W G := first
  [ eapply need_has in E; [|solve [eauto with reads]|exact W|intros ?; apply G; inb]
  | eapply opt_may in E; [|solve [eauto with reads]|exact W|intros ?; apply G; inb|no_null]
  | eapply default_or in E; [|solve [eauto with reads]|exact W|intros ?; apply G; inb] ].
Ltac give_field W G := first
  [ eapply need_has; [solve [eauto with reads]|exact W|intros ?; apply G; inb|eassumption]
  | eapply opt_may; [solve [eauto with reads]|exact W|intros ?; apply G; inb|no_null|eassumption]
  | eapply default_or; [solve [eauto with reads]|exact W|intros ?; apply G; inb|eassumption] ].
Ltac ok_field W U Hx := first
  [ eapply fld_has; [solve [eauto with reads]|exact W|exact U|eassumption|exact Hx]
  | eapply fld_may; [solve [eauto with reads]|exact W|exact U|eassumption|exact Hx]
  | eapply fld_or; [solve [eauto with reads]|exact W|exact U|eassumption|exact Hx] ].
Ltac read_struct :=
  let v := fresh "v" in let a := fresh "a" in let W := fresh "W" in
  intros v a W; cbv zeta; rewrite gbind_got;
  match goal with |- context [struct ?fs ?n v] =>
    let ND := fresh "ND" in assert (ND : NoDup (map fst fs)) by nodup;
    split;
    [ let l := fresh "l" in let S := fresh "S" in let H := fresh "H" in let G := fresh "G" in let ST := fresh "ST" in
      intros (l & S & H); destruct (struct_got fs ND n v l W S) as [ST G];
      repeat (let E := fresh "E" in apply gbind_got in H; destruct H as (? & E & H); read_field E W G);
      injection H as <-; split; [exact ST|]; repeat split; assumption
    | let ST := fresh "ST" in let F := fresh "F" in
      intros (ST & F);
      repeat match type of F with _ /\ _ => let F' := fresh "F" in destruct F as (F' & F) end;
      destruct (struct_total fs ND n v W ST) as (l & S);
      [ let k := fresh in let f := fresh in let x := fresh in let I := fresh in let Hx := fresh in
        intros k f x I Hx; cbn [In fld] in I;
        repeat (destruct I as [I|I]; [injection I as <- <-;
          match type of Hx with holds ?nm _ ?key _ =>
            let U := fresh "U" in
            assert (U : forall x y, holds nm v key x -> holds nm v key y -> x = y) by (intros ? ?; apply (holds_fun fs ND n); [exact ST|inb]);
            ok_field W U Hx end|]); destruct I
      | destruct (struct_got fs ND n v l W S) as [_ G]; exists l; split; [exact S|];
        repeat (apply gbind_got; eexists; split; [give_field W G|]); destruct a; reflexivity ] ]
  end.

Lemma reads_track : reads read_track is_track.
Proof. unfold read_track, is_track. read_struct. Qed.
#[export] Hint Resolve reads_track : reads.

Lemma reads_codecs {C} (f : json -> got C) P : reads f P -> reads (read_codecs f) (is_codecs P).
Proof. intros R. unfold read_codecs, is_codecs. read_struct. Qed.
#[export] Hint Resolve reads_codecs : reads.
Lemma reads_capabilities u : reads (read_capabilities u) (is_capabilities u).
Proof. unfold read_capabilities, is_capabilities. read_struct. Qed.
#[export] Hint Resolve reads_capabilities : reads.
Lemma reads_feedback u : reads (read_feedback u) (is_feedback u).
Proof. unfold read_feedback, is_feedback. read_struct. Qed.

Section Floats.
Context {F64 F32 : Type} (f64_text : F64 -> option bytes) (f64_of : bytes -> option F64)
  (f32_text : F32 -> option bytes) (f32_of : bytes -> option F32) (f32_0 f32_1 : F32) (u : unicode).
Lemma reads_f64 : reads (read_f64 f64_of) (is_f64 f64_of).
Proof.
  intros v x W. unfold read_f64, is_f64. destruct v as [|b|t|raw|vs|es]; try (split; [discriminate|intros (? & ? & _); discriminate]).
  rewrite of_option_got. split; [intros T; exists t; auto|intros (? & [= <-] & T); exact T].
Qed.
Lemma reads_f32 : reads (read_f32 f32_of) (is_f32 f32_of).
Proof.
  intros v x W. unfold read_f32, is_f32. destruct v as [|b|t|raw|vs|es]; try (split; [discriminate|intros (? & ? & _); discriminate]).
  rewrite of_option_got. split; [intros T; exists t; auto|intros (? & [= <-] & T); exact T].
Qed.
Hint Resolve reads_f64 reads_f32 : reads.
Lemma reads_video_config : reads (read_video_config f64_of u) (is_video_config f64_of u).
Proof. unfold read_video_config, is_video_config. read_struct. Qed.
Hint Resolve reads_video_config : reads.
Lemma reads_video : reads (read_video f64_of u) (is_video_info f64_of u).
Proof. unfold read_video, is_video_info. read_struct. Qed.
Lemma reads_audio_config : reads read_audio_config is_audio_config.
Proof. unfold read_audio_config, is_audio_config. read_struct. Qed.
Hint Resolve reads_audio_config : reads.
Lemma reads_audio : reads read_audio is_audio_info.
Proof. unfold read_audio, is_audio_info. read_struct. Qed.
Lemma reads_position : reads (read_position f32_of f32_0 f32_1) (is_position f32_of f32_0 f32_1).
Proof. unfold read_position, is_position. read_struct. Qed.
Hint Resolve reads_position reads_video reads_audio : reads.
Lemma reads_location : reads (read_location f32_of f32_0 f32_1) (is_location f32_of f32_0 f32_1).
Proof. unfold read_location, is_location. read_struct. Qed.
Hint Resolve reads_location : reads.
Lemma reads_catalog : reads (read_catalog f64_of f32_of f32_0 f32_1 u) (is_catalog f64_of f32_of f32_0 f32_1 u).
Proof. unfold read_catalog, is_catalog. read_struct. Qed.
Theorem parse_catalog_exact s c : parse_catalog f64_of f32_of f32_0 f32_1 u s = Got c <->
  exists v, document v s /\ is_catalog f64_of f32_of f32_0 f32_1 u v c.
Proof.
  unfold parse_catalog. split.
  - destruct (read_json s) as [v|] eqn:E; [|discriminate]. apply read_json_exact in E. intros H. exists v. split; [exact E|].
    apply reads_catalog; [|exact H]. destruct E as (w & t & w' & _ & _ & E & _). apply (proj1 read_wf _ _ E).
  - intros (v & D & H). assert (W : wf v) by (destruct D as (w & t & w' & _ & _ & E & _); apply (proj1 read_wf _ _ E)).
    apply read_json_exact in D. rewrite D. apply reads_catalog; assumption.
Qed.
End Floats.
Theorem parse_feedback_exact u s c : parse_feedback u s = Got c <-> exists v, document v s /\ is_feedback u v c.
Proof.
  unfold parse_feedback. split.
  - destruct (read_json s) as [v|] eqn:E; [|discriminate]. apply read_json_exact in E. intros H. exists v. split; [exact E|].
    apply reads_feedback; [|exact H]. destruct E as (w & t & w' & _ & _ & E & _). apply (proj1 read_wf _ _ E).
  - intros (v & D & H). assert (W : wf v) by (destruct D as (w & t & w' & _ & _ & E & _); apply (proj1 read_wf _ _ E)).
    apply read_json_exact in D. rewrite D. apply reads_feedback; assumption.
Qed.
