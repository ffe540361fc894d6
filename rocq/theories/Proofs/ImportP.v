(** Chunking of the importer's input. *)
From Coq Require Import NArith ZArith Arith List Lia Bool.
From Coq Require Import Init.Byte Strings.Byte.
From Verif.Model Require Import Base Media Import.
From Verif.Spec Require Import ImportSpec.
Import ListNotations.
Open Scope nat_scope.

(** ** The buffer is only touched by [parse] *)
Lemma sample_buf m w v k t tf data e dts off s :
  im_buf (fst (sample m w v k t tf data e dts off s)) = im_buf s.
Proof.
  unfold sample.
  destruct (sample_time _ _ _ _); [|reflexivity].
  destruct (uadd _ _ off _); [|reflexivity].
  destruct (_ <? _)%N; [reflexivity|].
  destruct (sample_key _ _ _ _ _) as [[l key]|]; [|reflexivity].
  cbv zeta. destruct (slice _ _ _); [|reflexivity].
  destruct (media_header _); [|reflexivity].
  destruct (uadd _ _ dts _); reflexivity.
Qed.

Lemma samples_buf m w v k t tf data es : forall dts off s,
  im_buf (fst (samples m w v k t tf data es dts off s)) = im_buf s.
Proof.
  induction es as [|e es IH]; intros; [reflexivity|].
  cbn [samples]. generalize (sample_buf m w v k t tf data e dts off s).
  destruct (sample _ _ _ _ _ _ _ _ _ _ _) as [s1 [d o|o]]; cbn [fst]; intro H; [|exact H].
  rewrite IH. exact H.
Qed.

Lemma traf_buf m w v data h tf s : im_buf (fst (traf_step m w v data h tf s)) = im_buf s.
Proof.
  unfold traf_step.
  destruct (hget _ _); [|reflexivity]. destruct (find _ _); [|reflexivity].
  destruct (tf_run tf); [|reflexivity]. destruct (tf_time tf); [|reflexivity].
  destruct (run_offset _ _ _ _ _ _); [|reflexivity..]. apply samples_buf.
Qed.

Lemma trafs_buf m w v data h tfs : forall s, im_buf (fst (trafs m w v data h tfs s)) = im_buf s.
Proof.
  induction tfs as [|tf tfs IH]; intros; [reflexivity|].
  cbn [trafs]. generalize (traf_buf m w v data h tf s).
  destruct (traf_step _ _ _ _ _ _ _) as [s1 [| |]]; cbn [fst]; intro H; [|exact H..].
  rewrite IH. exact H.
Qed.

Lemma init_traks_buf ks : forall s, im_buf (fst (init_traks ks s)) = im_buf s.
Proof.
  induction ks as [|k ks IH]; intros; [reflexivity|]. cbn [init_traks].
  destruct (tk_hdlr k); try reflexivity; destruct (tk_codec k); try reflexivity; rewrite IH; reflexivity.
Qed.

Lemma process_buf m w a n s : im_buf (fst (process m w a n s)) = im_buf s.
Proof.
  destruct a as [|v|f|data|]; cbn [process]; try reflexivity.
  - unfold init. generalize (init_traks_buf (mv_trak v) s).
    destruct (init_traks _ _) as [s1 [| |]]; intro H; exact H.
  - destruct (im_moof s); reflexivity.
  - destruct (usub _ _ _ _); [|reflexivity]. unfold extract.
    destruct (im_moov s); [|reflexivity]. destruct (im_moof s); [|reflexivity].
    rewrite trafs_buf. reflexivity.
Qed.

Lemma boxes_buf m w l : forall s, im_buf (fst (boxes m w l s)) = im_buf s.
Proof.
  induction l as [|[a n] l IH]; intro s; [reflexivity|]. cbn [boxes].
  generalize (process_buf m w a (N.of_nat n) s).
  destruct (process _ _ _ _ _) as [s1 [| |]]; cbn [fst]; intro H; [|exact H..].
  rewrite IH. exact H.
Qed.

Lemma with_buf_same s : iwith_buf s (im_buf s) = s.
Proof. destruct s; reflexivity. Qed.
Lemma with_buf_empty s : im_buf s = [] -> iwith_buf s [] = s.
Proof. intro H. rewrite <- H. apply with_buf_same. Qed.

(** ** Cutting into boxes *)
Section Cut.
  Variable dec : decoder.
  Hypothesis Hst : stable dec.

  Lemma st_nil : dec [] = DNone.
  Proof. exact (proj1 Hst). Qed.
  Lemma st_atom b a n : dec b = DAtom a n -> 0 < n <= length b /\ forall c, dec (b ++ c) = DAtom a n.
  Proof. intro E. generalize (proj2 Hst b). rewrite E. auto. Qed.
  Lemma st_fail b e : dec b = DFail e -> forall c, dec (b ++ c) = DFail e.
  Proof. intro E. generalize (proj2 Hst b). rewrite E. auto. Qed.

  Lemma cut_total : forall n b, length b <= n -> exists l e, cut dec b l e.
  Proof.
    induction n as [|n IH]; intros b Hb.
    - destruct b; [|cbn in Hb; lia]. exists [], (CRest []). constructor. apply st_nil.
    - destruct (dec b) as [|a k|e] eqn:E.
      + exists [], (CRest b). constructor. exact E.
      + destruct (st_atom _ _ _ E) as [Hk _].
        destruct (IH (skipn k b)) as (l & e & H); [rewrite skipn_length; lia|].
        exists ((a, k) :: l), e. econstructor; eauto.
      + exists [], (CBad e). constructor. exact E.
  Qed.

  Lemma cut_det b l e : cut dec b l e -> forall l' e', cut dec b l' e' -> l = l' /\ e = e'.
  Proof.
    induction 1 as [b E|b x E|b a n l e E _ IH]; intros l' e' H'; inversion H'; subst;
      try congruence; try (split; congruence).
    rewrite E in H. injection H as <- <-.
    destruct (IH _ _ H0) as [<- <-]. auto.
  Qed.

  Lemma cut_app b l e : cut dec b l e -> forall r c l' e', e = CRest r -> cut dec (r ++ c) l' e' ->
    cut dec (b ++ c) (l ++ l') e'.
  Proof.
    induction 1 as [b E|b x E|b a n l e E _ IH]; intros r c l' e' He H'.
    - injection He as <-. exact H'.
    - discriminate.
    - destruct (st_atom _ _ _ E) as [Hn Hc]. cbn [app]. econstructor; [apply Hc|].
      rewrite skipn_app. replace (n - length b) with 0 by lia. cbn [skipn]. eapply IH; eauto.
  Qed.

  Lemma cut_app_bad b l e : cut dec b l e -> forall x c, e = CBad x -> cut dec (b ++ c) l e.
  Proof.
    induction 1 as [b E|b x E|b a n l e E _ IH]; intros y c He.
    - discriminate.
    - constructor. apply st_fail. exact E.
    - destruct (st_atom _ _ _ E) as [Hn Hc]. econstructor; [apply Hc|].
      rewrite skipn_app. replace (n - length b) with 0 by lia. cbn [skipn]. eapply IH; eauto.
  Qed.

  Lemma cut_rest_none b l e : cut dec b l e -> forall r, e = CRest r -> dec r = DNone.
  Proof. induction 1; intros r Hr; [injection Hr as <-; assumption|discriminate|eauto]. Qed.

  Definition ended (m : mode) (w : N) (l : list (atom * nat)) (e : cut_end) (s : imp) : imp * pout :=
    match boxes m w l s with
    | (s, IOk) => match e with CRest r => (s, POk r) | CBad x => (s, PErr (EMp4 x)) end
    | (s, IErr x) => (s, PErr x)
    | (s, IPanic) => (s, PPanic)
    end.

  Lemma inner_cut m w b l e : cut dec b l e -> forall fuel s, length b < fuel ->
    parse_inner dec m w fuel b s = ended m w l e s.
  Proof.
    induction 1 as [b E|b x E|b a n l e E _ IH]; intros fuel s Hf; (destruct fuel; [lia|]); cbn [parse_inner];
      rewrite E.
    - reflexivity.
    - reflexivity.
    - destruct (st_atom _ _ _ E) as [Hn _]. unfold ended. cbn [boxes].
      destruct (process m w a (N.of_nat n) s) as [s1 [|x|]]; [|reflexivity..].
      apply IH. rewrite skipn_length. lia.
  Qed.

  Lemma boxes_app m w l1 l2 : forall s, boxes m w (l1 ++ l2) s =
    match boxes m w l1 s with (s1, IOk) => boxes m w l2 s1 | r => r end.
  Proof.
    induction l1 as [|[a n] l1 IH]; intro s; [reflexivity|]. cbn [app boxes].
    destruct (process _ _ _ _ _) as [s1 [| |]]; [apply IH|reflexivity..].
  Qed.

  Lemma parse_ended m w c s l e : cut dec (im_buf s ++ c) l e ->
    parse dec m w c s = imported m w l e (iwith_buf s []).
  Proof.
    intro H. unfold parse.
    assert (Hi : parse_inner dec m w (enough (im_buf s ++ c)) (im_buf s ++ c) (iwith_buf s []) =
                 ended m w l e (iwith_buf s [])).
    { apply inner_cut; [exact H|]. unfold enough. lia. }
    assert (Hr : match parse_inner dec m w (enough (im_buf s ++ c)) (im_buf s ++ c) (iwith_buf s []) with
                 | (s0, POk rest) => (iwith_buf s0 rest, POk rest)
                 | r => r end = imported m w l e (iwith_buf s [])).
    { rewrite Hi. unfold ended, imported.
      destruct (boxes m w l (iwith_buf s [])) as [s1 [|x|]]; [|reflexivity..]. destruct e; reflexivity. }
    destruct (im_buf s) as [|b0 b] eqn:Eb.
    - rewrite <- Hr. rewrite with_buf_empty by exact Eb. reflexivity.
    - exact Hr.
  Qed.

  Lemma imported_app m w l1 r l2 e s : im_buf s = [] ->
    imported m w (l1 ++ l2) e s =
    match imported m w l1 (CRest r) s with
    | (s1, POk _) => imported m w l2 e (iwith_buf s1 [])
    | x => x
    end.
  Proof.
    intro Hb. unfold imported. rewrite boxes_app.
    generalize (boxes_buf m w l1 s). destruct (boxes m w l1 s) as [s1 [|x|]]; cbn [fst]; intro H1; [|reflexivity..].
    change (iwith_buf (iwith_buf s1 r) []) with (iwith_buf s1 []).
    rewrite with_buf_empty by congruence. reflexivity.
  Qed.

  Lemma imported_bad_app m w l x s s1 o : imported m w l (CBad x) s = (s1, o) -> forall r, o <> POk r.
  Proof.
    unfold imported. destruct (boxes m w l s) as [s2 [|y|]]; intros H r; injection H as <- <-; discriminate.
  Qed.

  Theorem feed_cut m w cs : forall s l e, dec (im_buf s) = DNone -> cut dec (im_buf s ++ concat cs) l e ->
    feed dec m w cs s = imported m w l e (iwith_buf s []).
  Proof.
    induction cs as [|c cs IH]; intros s l e Hd H.
    - cbn [concat] in H. rewrite app_nil_r in H.
      destruct (cut_det _ _ _ H [] (CRest (im_buf s))) as [-> ->]; [constructor; exact Hd|].
      cbn [feed]. unfold imported. cbn [boxes].
      change (iwith_buf (iwith_buf s []) (im_buf s)) with (iwith_buf s (im_buf s)).
      rewrite with_buf_same. reflexivity.
    - cbn [concat] in H. rewrite app_assoc in H. cbn [feed].
      destruct (cut_total (length (im_buf s ++ c)) (im_buf s ++ c)) as (l1 & e1 & H1); [lia|].
      rewrite (parse_ended m w c s l1 e1 H1).
      destruct e1 as [r|x].
      + destruct (cut_total (length (r ++ concat cs)) (r ++ concat cs)) as (l2 & e2 & H2); [lia|].
        destruct (cut_det _ _ _ H _ _ (cut_app _ _ _ H1 _ _ _ _ eq_refl H2)) as [-> ->].
        rewrite (imported_app m w l1 r l2 e2) by reflexivity.
        destruct (imported m w l1 (CRest r) (iwith_buf s [])) as [s1 o] eqn:E1.
        destruct o; [|reflexivity..].
        assert (Hr : im_buf s1 = r).
        { revert E1. unfold imported. destruct (boxes m w l1 _) as [s2 [|y|]]; intro E1; try discriminate; injection E1 as <- <-; reflexivity. }
        apply IH.
        * rewrite Hr. exact (cut_rest_none _ _ _ H1 _ eq_refl).
        * rewrite Hr. exact H2.
      + destruct (cut_det _ _ _ H _ _ (cut_app_bad _ _ _ H1 _ _ eq_refl)) as [-> ->].
        destruct (imported m w l1 (CBad x) (iwith_buf s [])) as [s1 o] eqn:E1.
        generalize (imported_bad_app _ _ _ _ _ _ _ E1). destruct o; [|reflexivity..].
        intro Hn. destruct (Hn rest eq_refl).
  Qed.

  Lemma read_cut m w fin cs : Forall (fun c => c <> []) cs -> forall buf s l e,
    dec buf = DNone -> cut dec (buf ++ concat cs) l e ->
    read_loop dec m w cs fin buf s =
    match ended m w l e s with
    | (s1, POk r) => match fin with REof => (s1, POk r) | RFail n => (s1, PErr (EIo n)) end
    | x => x
    end.
  Proof.
    induction 1 as [|c cs Hc _ IH]; intros buf s l e Hd H.
    - cbn [concat] in H. rewrite app_nil_r in H.
      destruct (cut_det _ _ _ H [] (CRest buf)) as [-> ->]; [constructor; exact Hd|].
      reflexivity.
    - cbn [concat] in H. rewrite app_assoc in H. cbn [read_loop].
      destruct c as [|c0 c']; [congruence|]. set (c := c0 :: c') in *.
      destruct (cut_total (length (buf ++ c)) (buf ++ c)) as (l1 & e1 & H1); [lia|].
      rewrite (inner_cut m w _ _ _ H1) by (unfold enough; lia).
      destruct e1 as [r|x].
      + destruct (cut_total (length (r ++ concat cs)) (r ++ concat cs)) as (l2 & e2 & H2); [lia|].
        destruct (cut_det _ _ _ H _ _ (cut_app _ _ _ H1 _ _ _ _ eq_refl H2)) as [-> ->].
        unfold ended at 1 2. rewrite boxes_app.
        destruct (boxes m w l1 s) as [s1 [|y|]]; [|reflexivity..].
        rewrite (IH r s1 l2 e2); [reflexivity| |exact H2].
        exact (cut_rest_none _ _ _ H1 _ eq_refl).
      + destruct (cut_det _ _ _ H _ _ (cut_app_bad _ _ _ H1 _ _ eq_refl)) as [-> ->].
        unfold ended. destruct (boxes m w l1 s) as [s1 [|y|]]; reflexivity.
  Qed.
End Cut.

(** ** ISO framing *)
Lemma len_app {A} (a b : list A) : (len (a ++ b) = len a + len b)%N.
Proof. unfold len. rewrite app_length. lia. Qed.
Lemma ltb_len_app {A} (a b : list A) n : (len a <? n)%N = false -> (len (a ++ b) <? n)%N = false.
Proof. rewrite len_app, !N.ltb_ge. lia. Qed.
Lemma firstn_le_app {A} n (a b : list A) : n <= length a -> firstn n (a ++ b) = firstn n a.
Proof. intro H. rewrite firstn_app. replace (n - length a) with 0 by lia. cbn [firstn]. apply app_nil_r. Qed.

Definition stays (d : dres) (b : bytes) (f : bytes -> dres) : Prop :=
  match d with
  | DNone => True
  | DAtom a n => (0 < n <= length b) /\ forall c, f (b ++ c) = DAtom a n
  | DFail e => forall c, f (b ++ c) = DFail e
  end.

Lemma iso_size_stays size least body b f : (0 < least)%N ->
  (forall c, f (b ++ c) = iso_size size least body (b ++ c)) ->
  stays (iso_size size least body b) b f.
Proof.
  intros Hl Hf. unfold iso_size at 1.
  destruct (size <? least)%N eqn:E1.
  { cbn. intro c. rewrite Hf. unfold iso_size. rewrite E1. reflexivity. }
  destruct (len b <? size)%N eqn:E2; [exact I|].
  assert (Hs : N.to_nat size <= length b) by (apply N.ltb_ge in E2; unfold len in E2; lia).
  assert (Hc : forall c, f (b ++ c) = iso_body body b (N.to_nat size)).
  { intro c. rewrite Hf. unfold iso_size. rewrite E1, (ltb_len_app _ _ _ E2).
    unfold iso_body. rewrite firstn_le_app by exact Hs. reflexivity. }
  unfold iso_body in *. destruct (body _); cbn [stays]; [|exact Hc].
  split; [|exact Hc]. apply N.ltb_ge in E1. lia.
Qed.

Theorem iso_stable body : stable (iso_dec false body).
Proof.
  split; [reflexivity|]. intro b. change (stays (iso_dec false body b) b (iso_dec false body)).
  unfold iso_dec at 1.
  destruct (len b <? 8)%N eqn:E8; [exact I|].
  assert (H8 : 8 <= length b) by (apply N.ltb_ge in E8; unfold len in E8; lia).
  assert (E4 : forall c, firstn 4 (b ++ c) = firstn 4 b) by (intro; apply firstn_le_app; lia).
  destruct (be_value (firstn 4 b) =? 0)%N eqn:E0.
  { cbn [stays]. intro c. unfold iso_dec. rewrite (ltb_len_app _ _ _ E8), E4, E0. reflexivity. }
  destruct (be_value (firstn 4 b) =? 1)%N eqn:E1.
  - destruct (len b <? 16)%N eqn:E16; [exact I|].
    assert (H16 : 16 <= length b) by (apply N.ltb_ge in E16; unfold len in E16; lia).
    apply iso_size_stays; [reflexivity|]. intro c. unfold iso_dec.
    rewrite (ltb_len_app _ _ _ E8), E4, E0, E1, (ltb_len_app _ _ _ E16).
    rewrite skipn_app. replace (8 - length b) with 0 by lia. change (skipn 0 c) with c.
    rewrite firstn_le_app by (rewrite skipn_length; lia). reflexivity.
  - apply iso_size_stays; [reflexivity|]. intro c. unfold iso_dec.
    rewrite (ltb_len_app _ _ _ E8), E4, E0, E1. reflexivity.
Qed.

(** ** Boxes of size 0 *)
Lemma open_same body b : iso_dec false body b <> DFail 1 -> iso_dec true body b = iso_dec false body b.
Proof.
  unfold iso_dec. destruct (_ <? _)%N; [reflexivity|]. destruct (_ =? 0)%N; [congruence|reflexivity].
Qed.

Lemma inner_open body m w b l e : cut (iso_dec false body) b l e -> e <> CBad 1 -> forall fuel s,
  parse_inner (iso_dec true body) m w fuel b s = parse_inner (iso_dec false body) m w fuel b s.
Proof.
  induction 1 as [b E|b x E|b a n l e E _ IH]; intros He fuel s; (destruct fuel; [reflexivity|]); cbn [parse_inner].
  - rewrite open_same, E by congruence. reflexivity.
  - rewrite open_same, E by congruence. reflexivity.
  - rewrite open_same by congruence. rewrite E.
    destruct (process m w a (N.of_nat n) s) as [s1 [|x|]]; [|reflexivity..]. apply IH. exact He.
Qed.

Lemma parse_open body m w c s l e : cut (iso_dec false body) (im_buf s ++ c) l e -> e <> CBad 1 ->
  parse (iso_dec true body) m w c s = parse (iso_dec false body) m w c s.
Proof.
  intros H He. unfold parse. destruct (im_buf s) as [|b0 b]; rewrite (inner_open body m w _ _ _ H He); reflexivity.
Qed.

Theorem feed_open body m w cs : forall s l e, cut (iso_dec false body) (im_buf s ++ concat cs) l e -> e <> CBad 1 ->
  feed (iso_dec true body) m w cs s = feed (iso_dec false body) m w cs s.
Proof.
  pose proof (iso_stable body) as Hst.
  induction cs as [|c cs IH]; intros s l e H He; [reflexivity|]. cbn [feed concat] in *. rewrite app_assoc in H.
  destruct (cut_total _ Hst (length (im_buf s ++ c)) (im_buf s ++ c)) as (l1 & e1 & H1); [lia|].
  assert (He1 : e1 <> CBad 1).
  { intros ->. destruct (cut_det _ _ _ _ H _ _ (cut_app_bad _ Hst _ _ _ H1 _ (concat cs) eq_refl)) as [_ ->]. congruence. }
  rewrite (parse_open body m w c s l1 e1 H1 He1).
  rewrite (parse_ended _ Hst m w c s l1 e1 H1).
  destruct (imported m w l1 e1 (iwith_buf s [])) as [s1 o] eqn:E1. destruct o; [|reflexivity..].
  destruct e1 as [r|x]; [|destruct (imported_bad_app _ _ _ _ _ _ _ E1 rest eq_refl)].
  assert (Hr : im_buf s1 = r).
  { revert E1. unfold imported. destruct (boxes m w l1 _) as [s2 [|y|]]; intro E1; try discriminate; injection E1 as <- <-; reflexivity. }
  destruct (cut_total _ Hst (length (r ++ concat cs)) (r ++ concat cs)) as (l2 & e2 & H2); [lia|].
  destruct (cut_det _ _ _ _ H _ _ (cut_app _ Hst _ _ _ H1 _ _ _ _ eq_refl H2)) as [_ ->].
  apply (IH s1 l2 e2); [rewrite Hr; exact H2|exact He].
Qed.

(** ** Statements *)
Theorem feed_new dec m w cs l e : stable dec -> cut dec (concat cs) l e ->
  feed dec m w cs imp_new = imported m w l e imp_new.
Proof. intros Hst H. apply (feed_cut dec Hst m w cs imp_new); [exact (proj1 Hst)|exact H]. Qed.

Theorem feed_chunks dec m w cs cs' : stable dec -> concat cs = concat cs' ->
  feed dec m w cs imp_new = feed dec m w cs' imp_new.
Proof.
  intros Hst E. destruct (cut_total dec Hst (length (concat cs)) (concat cs)) as (l & e & H); [lia|].
  rewrite (feed_new dec m w cs l e Hst H). rewrite E in H. rewrite (feed_new dec m w cs' l e Hst H). reflexivity.
Qed.

Theorem feed_no_fuel dec m w cs : stable dec -> snd (feed dec m w cs imp_new) <> PFuel.
Proof.
  intros Hst. destruct (cut_total dec Hst (length (concat cs)) (concat cs)) as (l & e & H); [lia|].
  rewrite (feed_new dec m w cs l e Hst H). unfold imported.
  destruct (boxes m w l imp_new) as [s [|x|]]; [destruct e| |]; discriminate.
Qed.

Theorem read_new dec m w cs fin l e s : stable dec -> Forall (fun c => c <> []) cs -> cut dec (concat cs) l e ->
  read_from dec m w cs fin s =
  match boxes m w l s with
  | (s, IOk) =>
    match e, fin with
    | CBad x, _ => (s, PErr (EMp4 x))
    | CRest _, RFail n => (s, PErr (EIo n))
    | CRest [], REof => (s, POk [])
    | CRest (_ :: _), REof => (s, PErr ETrailingData)
    end
  | (s, IErr x) => (s, PErr x)
  | (s, IPanic) => (s, PPanic)
  end.
Proof.
  intros Hst Hc H. unfold read_from. rewrite (read_cut dec Hst m w fin cs Hc [] s l e (proj1 Hst) H).
  unfold ended. destruct (boxes m w l s) as [s1 [|x|]]; [|reflexivity..].
  destruct e as [r|x]; [|reflexivity]. destruct fin, r; reflexivity.
Qed.
