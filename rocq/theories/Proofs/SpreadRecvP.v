(** The receiving loop of an announce stream. *)
From Coq Require Import NArith ZArith List Lia Bool Permutation.
From Coq Require Import Init.Byte Strings.Byte.
From Coq Require Import ZifyBool ZifyNat ZifyN.
From Verif.Model Require Import OriginSys Base Coding Message ErrorCode Stream Frame FrameSys Map Publisher ReceiverSys Spread.
From Verif.Spec Require Import OriginSpec SpreadSpec.
From Verif.Proofs Require Import TableP MapP BroadcastP OriginP OriginTop RelaySysP ReceiverP SpreadP SpreadFrameP SpreadTurnP.
Import ListNotations.
Open Scope nat_scope.
#[local] Arguments put : simpl never.
#[local] Arguments remove : simpl never.
#[local] Arguments lookup : simpl never.

Lemma with_same o : with_closed (os_closed o) o = o.
Proof. destruct o; reflexivity. Qed.
Lemma set_nth_none {A} b (x : A) l : nth_error l b = None -> set_nth b x l = l.
Proof. revert b; induction l as [|y l IH]; intros [|b] H; cbn in *; auto; try discriminate. f_equal; auto. Qed.
Lemma oend_with b o : oend b o = with_closed (set_nth b true (os_closed o)) o.
Proof.
  unfold oend. cbn. destruct (nth_error (os_closed o) b) eqn:E; cbn; auto. rewrite set_nth_none by auto. symmetry. apply with_same.
Qed.
Lemma drop_map_with s : forall o, drop_map s o = with_closed (os_closed (drop_map s o)) o.
Proof.
  unfold drop_map. induction (rv_map s) as [|[p c] m IH]; intros o; cbn; [symmetry; apply with_same|].
  destruct (nth_error (rv_bcasts s) c) as [[q []]|]; auto. rewrite IH at 1. rewrite oend_with. reflexivity.
Qed.
Lemma drop_with c o p : fst (ostep (with_closed c o) (ODrop p)) = with_closed c (fst (ostep o (ODrop p))).
Proof. cbn. destruct (get (os_prods o) p); reflexivity. Qed.

Lemma drop_map_grows s o : grows (os_closed o) (os_closed (drop_map s o)).
Proof.
  split; [rewrite drop_map_length; auto|]. intros b H. apply closedb_nth in H. apply closedb_nth.
  destruct (nth_error (os_closed (drop_map s o)) b) as [[]|] eqn:E; auto.
  - apply drop_map_closed in E as (E & _). congruence.
  - apply nth_error_None in E. rewrite drop_map_length in E. apply nth_error_None in E. congruence.
Qed.
Lemma drop_map_closes s o b : b < length (os_closed o) ->
  (closedb (os_closed (drop_map s o)) b <-> closedb (os_closed o) b \/ exists p q, In (p, b) (rv_map s) /\ nth_error (rv_bcasts s) b = Some (q, false)).
Proof.
  intros L. rewrite !closedb_nth. pose proof (drop_map_closed s o b) as D.
  destruct (nth_error (os_closed (drop_map s o)) b) as [[]|] eqn:E.
  - destruct (nth_error (os_closed o) b) as [[]|] eqn:F; [tauto| |].
    + split; auto. intros _. right.
      destruct (in_dec Nat.eq_dec b (map snd (rv_map s))) as [I|I].
      * apply in_map_iff in I as ([p c] & Ec & I). cbn in Ec. subst c. destruct (nth_error (rv_bcasts s) b) as [[q []]|] eqn:Q.
        -- exfalso. assert (X : Some true = Some false); [|discriminate]. apply D. split; auto. intros (p1 & q1 & _ & X). discriminate.
        -- eauto.
        -- exfalso. assert (X : Some true = Some false); [|discriminate]. apply D. split; auto. intros (p1 & q1 & _ & X). discriminate.
      * exfalso. assert (X : Some true = Some false); [|discriminate]. apply D. split; auto. intros (p1 & q1 & X & _).
        apply I. apply (in_map snd) in X. exact X.
    + apply nth_error_None in F. lia.
  - split; [discriminate|]. intros [X|X]; exfalso; destruct (proj1 D eq_refl) as (Y & Z); [congruence|auto].
  - apply nth_error_None in E. rewrite drop_map_length in E. lia.
Qed.

(** What the loop does to its origin and to the broadcasts. *)
Record received (C : list bool) (Pr : list (bytes * nat)) (r r' : osys) (pubs : list (bytes * nat)) : Prop := {
  rc_shape : exists C0 ops o' ev, (C0 = C \/ C0 = C ++ [false]) /\ grows C0 (os_closed r') /\ length C0 = length (os_closed r') /\
    orun (with_closed C0 r) ops = (o', ev) /\ Forall calm ops /\ (forall c, Forall (fun op => touches_cons c op = false) ops) /\
    r' = with_closed (os_closed r') o' /\ flat_map pub_of ev = pubs /\ (forall c, got c ev = []);
  rc_own : forall b, closedb (os_closed r') b -> closedb C b \/ exists s, In (s, b) (Pr ++ pubs);
  rc_grows : grows C (os_closed r') }.


Section Hop.
  Context (C : list bool) (os : list osys) (P : pubs_fn) (G : got_fn).

  (** The parts that do not concern the receiving side. *)
  Lemma hop_recv P' p p' r r' C' :
    hop_ok C os P G p -> grows C C' -> nth_error os (hp_dst p) = Some r -> hp_src p <> hp_dst p ->
    hp_src p' = hp_src p -> hp_cons p' = hp_cons p -> hp_pre p' = hp_pre p -> hp_dst p' = hp_dst p -> hp_ann p' = hp_ann p ->
    (hp_open p' = hp_open p \/ hp_open p' = false) -> P' (hp_src p) = P (hp_src p) ->
    (hp_left p' = None -> get (os_prods r') 0 = Some tt /\ exists k, get (os_cons r') 0 = Some k) ->
    length (hp_runs p') = length C' ->
    incl (hp_wire p') (hp_wire p) ->
    (forall s b, In (s, b) (P' (hp_dst p)) -> In s (map fst (G (hp_src p) (hp_cons p)))) ->
    (forall s b, In (s, b) (P' (hp_dst p)) -> exists r, nth_error (hp_runs p') b = Some (s, r)) ->
    (forall s b, nth_error (hp_runs p') b = Some (s, true) -> In (s, b) (P' (hp_dst p))) ->
    (forall s b, lookup s (hp_map p') = Some b -> In (s, b) (P' (hp_dst p))) ->
    NoDup (map fst (hp_map p')) ->
    (NoDup (map fst (P (hp_src p))) -> hop_once C' (P' (hp_dst p)) (G (hp_src p) (hp_cons p)) p') ->
    hop_ok C' (all_closed C' (set_nth (hp_dst p) r' os)) P' G p'.
  Proof.
    intros [(a & A & K) (r0 & Rr & K2) H3 H4 H5 H6 H7 H8 H9 H10 H11 H12 H13 H14] Gr Hr Ne E1 E2 E3 E4 E5 Eo EP D1 D2 D3 D4 D5 D6 D7 D8 D9.
    split; rewrite ?E1, ?E2, ?E3, ?E4, ?E5, ?EP; auto.
    - exists (with_closed C' a). split; [apply nth_closed; rewrite nth_error_set_ne; auto|]. intros O. eapply tracks_grow; eauto.
    - exists (with_closed C' r'). split; [apply nth_closed, nth_error_set_eq, nth_error_Some; congruence|]. exact D1.
    - intros O. destruct Eo as [Eo|Eo]; rewrite Eo; auto.
  Qed.

  Context (p : hop) (r : osys) (OK : hop_ok C os P G p) (Hr : nth_error os (hp_dst p) = Some r) (N : node C (P (hp_dst p)) r) (Ne : hp_src p <> hp_dst p).
  Definition the_loop := RSys r (hp_map p) (hp_left p) (hp_runs p) (hp_open p).
  Definition after (wire : list announce) (rs : rsys) : hop :=
    Hop (hp_src p) (hp_cons p) (hp_pre p) (hp_dst p) (hp_ann p) wire (rv_map rs) (rv_over rs) (rv_bcasts rs) (rv_session rs).

  Let Bd : forall s b, In (s, b) (P (hp_dst p)) -> b < length C.
  Proof. intros s b I. exact (nd_bound _ _ _ N _ I). Qed.
  Let Cl : os_closed r = C.
  Proof. exact (nd_closed _ _ _ N). Qed.

  Lemma same_path s s' b : In (s, b) (P (hp_dst p)) -> In (s', b) (P (hp_dst p)) -> s = s'.
  Proof. intros I I'. destruct (ho_run _ _ _ _ _ OK _ _ I) as (x & X). destruct (ho_run _ _ _ _ _ OK _ _ I') as (y & Y). congruence. Qed.

  (** ** A broadcast is announced *)
  Lemma read_active path w P' rs x :
    hp_wire p = Active path :: w -> hp_left p = None -> rstep the_loop (RMsg (Active path)) = (rs, x) ->
    (forall m, P' m = P m ++ (if Nat.eqb m (hp_dst p) then [(path, length C)] else [])) ->
    received C (P (hp_dst p)) r (rv_origin rs) [(path, length C)] /\
    (x = RAnnounced path (length C) \/ exists e, x = RLeft e) /\
    hop_ok (os_closed (rv_origin rs)) (all_closed (os_closed (rv_origin rs)) (set_nth (hp_dst p) (rv_origin rs) os)) P' G (after w rs).
  Proof.
    intros Hw Lf R HP. set (b := length C) in *.
    destruct (ho_dst _ _ _ _ _ OK) as (r0 & Hr0 & K2). assert (r0 = r) by congruence. subst r0. destruct (K2 Lf) as (Pr & k0 & Kc).
    assert (N1 : node (C ++ [false]) (P (hp_dst p)) (with_closed (C ++ [false]) r)) by (apply (node_grow C); auto; apply grows_snoc).
    destruct (ostep (with_closed (C ++ [false]) r) (OPublish 0 path b)) as [o2 y] eqn:B.
    destruct (publish_fields _ _ _ _ _ _ B) as (Fa & Fc & Ft & Fp & Fy); [exact Pr|cbn; rewrite app_length; cbn; lia|].
    cbn [with_closed os_active os_closed os_prods] in Fa, Fc, Fp, Fy.
    assert (E1 : P' (hp_src p) = P (hp_src p)) by (rewrite HP; destruct (Nat.eqb_spec (hp_src p) (hp_dst p)); [contradiction|apply app_nil_r]).
    assert (E2 : P' (hp_dst p) = P (hp_dst p) ++ [(path, b)]) by (rewrite HP, Nat.eqb_refl; reflexivity).
    assert (R1 : rstep the_loop (RMsg (Active path)) =
      match y with
      | OUnique true => (RSys o2 (put path b (hp_map p)) None (hp_runs p ++ [(path, true)]) (hp_open p), RAnnounced path b)
      | _ => (leave the_loop (oend b o2) (hp_runs p ++ [(path, false)]) (Some Duplicate), RLeft (Some Duplicate))
      end).
    { unfold the_loop, rstep. cbn [rv_over rv_origin rv_map rv_bcasts rv_session]. rewrite Lf. cbn zeta. rewrite Cl. fold b.
      replace (fst (ostep r ONew)) with (with_closed (C ++ [false]) r) by (cbn; unfold with_closed; rewrite Cl; reflexivity).
      rewrite B. destruct y as [| | |[]| | | | | | | | | |]; reflexivity. }
    assert (Len : length (hp_runs p) = b) by apply OK.
    assert (Ing : In path (map fst (G (hp_src p) (hp_cons p)))) by (apply (ho_wire _ _ _ _ _ OK); rewrite Hw; left; reflexivity).
    assert (Fr : NoDup (map fst (P (hp_src p))) -> ~ In path (map fst (P (hp_dst p)))).
    { intros Nd. destruct (h1_travel _ _ _ _ (ho_once _ _ _ _ _ OK Nd) Lf path) as (pr & pp & X1 & X2 & _).
      rewrite Hw in X2. cbn [filter about] in X2. rewrite str_eqb_refl in X2. inversion X2; subst; exact X1. }
    assert (RUN : forall f s c, In (s, c) (P (hp_dst p) ++ [(path, b)]) -> exists q, nth_error (hp_runs p ++ [(path, f)]) c = Some (s, q)).
    { intros f s c I. apply in_app_or in I as [I|[[= <- <-]|[]]].
      - destruct (ho_run _ _ _ _ _ OK _ _ I) as (q & Q). exists q. rewrite nth_error_app1; auto. apply nth_error_Some. congruence.
      - exists f. rewrite nth_error_app2, Len, Nat.sub_diag by lia. reflexivity. }
    assert (TRUE : forall f s c, nth_error (hp_runs p ++ [(path, f)]) c = Some (s, true) -> In (s, c) (P (hp_dst p) ++ [(path, b)])).
    { intros f s c I. apply in_or_app. destruct (lt_dec c b) as [L|L].
      - rewrite nth_error_app1 in I by lia. left. apply (ho_true _ _ _ _ _ OK). auto.
      - rewrite nth_error_app2, Len in I by lia. destruct (c - b) as [|[|]] eqn:E; try discriminate. injection I as -> ->.
        right. left. f_equal. lia. }
    rewrite R1 in R. clear R1. rewrite Fy in *. destruct (lookup path (os_active r)) as [b1|] eqn:L.
    - (* refused *)
      injection R as <- <-. set (s1 := the_loop) in *. set (o3 := drop_map s1 (oend b o2)).
      assert (E3 : rv_origin (leave s1 (oend b o2) (hp_runs p ++ [(path, false)]) (Some Duplicate)) = with_closed (os_closed o3) (fst (ostep o2 (ODrop 0)))).
      { cbn [leave rv_origin]. fold o3. unfold o3 at 1. rewrite drop_map_with. fold o3. rewrite drop_with. rewrite oend_with. rewrite drop_with. reflexivity. }
      assert (E4 : os_closed (rv_origin (leave s1 (oend b o2) (hp_runs p ++ [(path, false)]) (Some Duplicate))) = os_closed o3) by (rewrite E3; reflexivity).
      assert (G1 : grows (C ++ [false]) (os_closed o3)).
      { eapply grows_trans; [|apply drop_map_grows]. rewrite oend_with. cbn [with_closed os_closed]. rewrite Fc. apply grows_set. }
      assert (Ln : length (os_closed o3) = S b).
      { unfold o3. rewrite drop_map_length, oend_with. cbn [with_closed os_closed]. rewrite set_nth_length, Fc, app_length. cbn. unfold b. lia. }
      rewrite E4. split; [|split; [right; eauto|]].
      + split.
        * exists (C ++ [false]), [OPublish 0 path b; ODrop 0]. rewrite E4.
          destruct (ostep o2 (ODrop 0)) as [o4 z] eqn:B4. exists o4, [(OPublish 0 path b, OUnique false); (ODrop 0, z)].
          split; [auto|]. split; [exact G1|]. split; [rewrite Ln, app_length; cbn; unfold b; lia|].
          split; [cbn [orun]; rewrite B, B4; reflexivity|]. split; [repeat constructor|]. split; [intros c; repeat constructor|].
          split; [rewrite E3; reflexivity|]. cbn. destruct z; auto.
        * intros c Hc. rewrite E4 in Hc. assert (Lc : c < length (os_closed (oend b o2))).
          { apply closedb_lt in Hc. unfold o3 in Hc. rewrite drop_map_length in Hc. exact Hc. }
          apply drop_map_closes in Hc; auto. destruct Hc as [Hc|(q & q2 & I & _)].
          -- rewrite oend_with in Hc. cbn [with_closed os_closed] in Hc. rewrite Fc in Hc. apply closedb_set in Hc as [Hc|(-> & _)].
             ++ left. rewrite closedb_snoc in Hc. auto.
             ++ right. exists path. apply in_or_app. right. left. reflexivity.
          -- right. exists q. apply in_or_app. left. apply (ho_map _ _ _ _ _ OK). apply In_lookup; [apply OK|exact I].
        * rewrite E4. eapply grows_trans; [apply grows_snoc|exact G1].
      + apply (hop_recv P' p (after w _) r); cbn [leave after hp_src hp_dst hp_cons hp_pre hp_ann hp_wire hp_map hp_left hp_open hp_runs rv_map rv_over rv_bcasts rv_session the_loop]; auto; try discriminate.
        * eapply grows_trans; [apply grows_snoc|exact G1].
        * rewrite app_length, Len, Ln. cbn. lia.
        * rewrite Hw. intros z Z. right. exact Z.
        * rewrite E2. intros s c I. apply in_app_or in I as [I|[[= <- <-]|[]]]; [eapply ho_pubs; eauto|exact Ing].
        * rewrite E2. auto.
        * rewrite E2. eauto.
        * constructor.
        * intros Nd. exfalso. apply (Fr Nd). apply (node_active _ _ _ _ _ N) in L. apply (in_map fst) in L. exact L.
    - (* accepted *)
      injection R as <- <-. cbn [rv_origin]. rewrite Fc.
      split; [|split; [left; reflexivity|]].
      + split.
        * exists (C ++ [false]), [OPublish 0 path b], o2, [(OPublish 0 path b, OUnique true)]. rewrite Fc.
          split; [auto|]. split; [apply grows_refl|]. split; [reflexivity|]. split; [cbn [orun]; rewrite B; reflexivity|].
          split; [repeat constructor|]. split; [intros c; repeat constructor|]. split; [rewrite <- Fc; symmetry; apply with_same|]. cbn. auto.
        * intros c Hc. rewrite Fc in Hc. left. rewrite closedb_snoc in Hc. exact Hc.
        * rewrite Fc. apply grows_snoc.
      + apply (hop_recv P' p (after w _) r); cbn [after hp_src hp_dst hp_cons hp_pre hp_ann hp_wire hp_map hp_left hp_open hp_runs rv_map rv_over rv_bcasts rv_session]; auto.
        * apply grows_snoc.
        * intros _. rewrite Fp. split; [exact Pr|]. cbn in B. rewrite Pr in B.
          pose proof (nd_owf _ _ _ N1) as W1.
          assert (B' : ostep (with_closed (C ++ [false]) r) (OPublish 0 path b) = (o2, OUnique true)) by (cbn; rewrite Pr; exact B).
          destruct (keep_cons _ _ _ _ 0 _ W1 B' Kc eq_refl) as (k' & X & _). eauto.
        * rewrite !app_length, Len. cbn. unfold b. lia.
        * rewrite Hw. intros z Z. right. exact Z.
        * rewrite E2. intros s c I. apply in_app_or in I as [I|[[= <- <-]|[]]]; [eapply ho_pubs; eauto|exact Ing].
        * rewrite E2. auto.
        * rewrite E2. eauto.
        * rewrite E2. intros s c. rewrite lookup_put. destruct (str_eqb_spec s path) as [->|Ns].
          -- intros [= <-]. apply in_or_app. right. left. reflexivity.
          -- intros H. apply in_or_app. left. eapply ho_map; eauto.
        * apply NoDup_put. apply OK.
        * intros Nd. rewrite E2. specialize (Fr Nd). destruct (ho_once _ _ _ _ _ OK Nd) as [J1 J2 J3 J4 J5 J6 J7 J8 J9 J10].
          split; cbn [after hp_src hp_dst hp_cons hp_pre hp_ann hp_wire hp_map hp_left hp_open hp_runs rv_map rv_over rv_bcasts rv_session]; auto.
          -- rewrite map_app. cbn. apply NoDup_app_intro; auto; [constructor; auto; constructor|]. intros s I [<-|[]]. auto.
          -- congruence.
          -- intros s c. rewrite lookup_put, closedb_snoc. destruct (str_eqb_spec s path) as [->|Ns].
             ++ intros [= <-] H. apply closedb_lt in H. unfold b in H. lia.
             ++ apply J5.
          -- intros _ s c I. rewrite lookup_put, closedb_snoc. destruct (str_eqb_spec s path) as [->|Ns]; [discriminate|].
             apply in_app_or in I as [I|[[= <- <-]|[]]]; [|congruence]. eauto.
          -- intros s c I. rewrite closedb_snoc. intros H. apply in_app_or in I as [I|[[= <- <-]|[]]].
             ++ destruct (J7 _ _ I H) as [?|(b0 & ? & ?)]; auto. right. exists b0. rewrite closedb_snoc. auto.
             ++ apply closedb_lt in H. unfold b in H. lia.
          -- intros s c I Ip. apply in_app_or in Ip as [Ip|[[= <- <-]|[]]].
             ++ pose proof (Bd _ _ Ip) as Lc. rewrite nth_error_app1 in I by lia. destruct (J8 _ _ I Ip) as (Q1 & Q2). split; auto.
                rewrite closedb_snoc, lookup_put. destruct (str_eqb_spec s path) as [->|]; auto.
                exfalso. apply Fr. apply (in_map fst) in Ip. exact Ip.
             ++ rewrite nth_error_app2, Len, Nat.sub_diag in I by lia. discriminate.
          -- intros _ s. destruct (J9 Lf s) as (pr & pp & X1 & X2 & X3 & X4). rewrite Hw in X2. cbn [filter about] in X2.
             assert (X3' : late_phase (C ++ [false]) (G (hp_src p) (hp_cons p)) s pp).
             { destruct pp; cbn in *; auto. destruct X3 as (b0 & ? & ?). exists b0. rewrite closedb_snoc. auto. }
             destruct (str_eqb_spec s path) as [->|Ns].
             ++ exists Live, pp. split; [cbn; exists b; rewrite lookup_put, str_eqb_refl; reflexivity|]. split; [|split; auto].
                inversion X2; subst; constructor.
             ++ exists pr, pp. split; [|split; auto]. destruct pr; cbn in *; rewrite ?lookup_put; rewrite ?in_fst_snoc; cbn.
                ** intros [?|?]; auto.
                ** destruct (str_eqb_spec s path); [contradiction|auto].
                ** destruct (str_eqb_spec s path); [contradiction|tauto].
          -- intros O s c I. rewrite closedb_snoc. eauto.
  Qed.

  (** ** Nothing happens, or the session closes *)
  Lemma unchanged w op' : incl w (hp_wire p) -> (w = hp_wire p) -> (op' = hp_open p \/ op' = false) ->
    let rs := RSys r (hp_map p) (hp_left p) (hp_runs p) op' in
    received C (P (hp_dst p)) r r [] /\
    hop_ok (os_closed r) (all_closed (os_closed r) (set_nth (hp_dst p) r os)) P G (after w rs).
  Proof.
    intros Hw Ew Op rs. rewrite !Cl. split.
    - split.
      + exists C, [], (with_closed C r), []. rewrite Cl. repeat split; auto. rewrite <- Cl. rewrite !with_same. reflexivity.
      + intros c. rewrite Cl. auto.
      + rewrite Cl. apply grows_refl.
    - apply (hop_recv P p (after w rs) r); unfold rs; cbn [after hp_src hp_dst hp_cons hp_pre hp_ann hp_wire hp_map hp_left hp_open hp_runs rv_map rv_over rv_bcasts rv_session]; auto; try apply OK; [apply grows_refl| |].
      + destruct (ho_dst _ _ _ _ _ OK) as (r0 & Hr0 & K2). assert (r0 = r) by congruence. subst r0. exact K2.
      + intros Nd. subst w. destruct (ho_once _ _ _ _ _ OK Nd) as [J1 J2 J3 J4 J5 J6 J7 J8 J9 J10].
        split; cbn [after hp_src hp_dst hp_cons hp_pre hp_ann hp_wire hp_map hp_left hp_open hp_runs rv_map rv_over rv_bcasts rv_session]; auto.
        * intros L. destruct (J4 L). split; auto. destruct Op as [Op|Op]; congruence.
        * intros s c I H. destruct (J7 _ _ I H) as [Q|Q]; auto. left. destruct Op as [Op|Op]; congruence.
        * intros s c I H. destruct (J8 _ _ I H) as (Q & Q2). split; auto. destruct Op as [Op|Op]; congruence.
  Qed.
  Lemma session_loop rs x : rstep the_loop RSession = (rs, x) ->
    received C (P (hp_dst p)) r (rv_origin rs) [] /\
    hop_ok (os_closed (rv_origin rs)) (all_closed (os_closed (rv_origin rs)) (set_nth (hp_dst p) (rv_origin rs) os)) P G (after (hp_wire p) rs).
  Proof. intros R. cbn in R. injection R as <- <-. cbn [rv_origin]. apply unchanged; auto. apply incl_refl. Qed.

  (** ** The loop is left *)
  Lemma leaves w e : incl w (hp_wire p) -> hp_left p = None ->
    (NoDup (map fst (P (hp_src p))) -> hp_open p = false) ->
    let rs := leave the_loop r (hp_runs p) e in
    received C (P (hp_dst p)) r (rv_origin rs) [] /\
    hop_ok (os_closed (rv_origin rs)) (all_closed (os_closed (rv_origin rs)) (set_nth (hp_dst p) (rv_origin rs) os)) P G (after w rs).
  Proof.
    intros Hw Lf Op rs. set (o3 := drop_map the_loop r).
    assert (E3 : rv_origin rs = with_closed (os_closed o3) (fst (ostep r (ODrop 0)))).
    { unfold rs. cbn [leave rv_origin]. unfold o3. rewrite drop_map_with at 1. apply drop_with. }
    assert (E4 : os_closed (rv_origin rs) = os_closed o3) by (rewrite E3; reflexivity).
    assert (G1 : grows C (os_closed o3)) by (rewrite <- Cl; apply drop_map_grows).
    assert (Ln : length (os_closed o3) = length C) by (unfold o3; rewrite drop_map_length, Cl; reflexivity).
    assert (CL : forall c, closedb (os_closed o3) c <-> closedb C c \/ exists q q2, In (q, c) (hp_map p) /\ nth_error (hp_runs p) c = Some (q2, false)).
    { intros c. destruct (lt_dec c (length C)) as [L|L].
      - unfold o3. rewrite drop_map_closes by (rewrite Cl; exact L). rewrite Cl. reflexivity.
      - split.
        + intros X. apply closedb_lt in X. lia.
        + intros [X|(q & q2 & _ & X)]; [apply closedb_lt in X; lia|]. assert (c < length (hp_runs p)) by (apply nth_error_Some; congruence).
          rewrite (ho_runs _ _ _ _ _ OK) in H. lia. }
    rewrite E4. split.
    - split.
      + exists C, [ODrop 0]. rewrite E4, <- Cl, with_same. destruct (ostep r (ODrop 0)) as [o4 z] eqn:B4. exists o4, [(ODrop 0, z)].
        split; [auto|]. split; [rewrite Cl; exact G1|]. split; [rewrite Ln, Cl; reflexivity|].
        split; [cbn [orun]; rewrite B4; reflexivity|]. split; [repeat constructor|]. split; [intros c; repeat constructor|].
        split; [rewrite E3; reflexivity|]. cbn. destruct z; auto.
      + intros c. rewrite E4, CL. intros [H|(q & q2 & I & _)]; auto. right. exists q. rewrite app_nil_r.
        apply (ho_map _ _ _ _ _ OK). apply In_lookup; [apply OK|exact I].
      + rewrite E4. exact G1.
    - apply (hop_recv P p (after w rs) r); unfold rs; cbn [leave after hp_src hp_dst hp_cons hp_pre hp_ann hp_wire hp_map hp_left hp_open hp_runs rv_map rv_over rv_bcasts rv_session the_loop]; auto; try discriminate.
      + rewrite Ln. apply OK.
      + apply OK.
      + apply OK.
      + apply OK.
      + constructor.
      + intros Nd. specialize (Op Nd). destruct (ho_once _ _ _ _ _ OK Nd) as [J1 J2 J3 J4 J5 J6 J7 J8 J9 J10].
        split; cbn [leave after hp_src hp_dst hp_cons hp_pre hp_ann hp_wire hp_map hp_left hp_open hp_runs rv_map rv_over rv_bcasts rv_session the_loop]; auto; try discriminate.
        * intros s c I Ip. destruct (J8 _ _ I Ip) as (Q1 & Q2). split; auto. left. apply CL. destruct Q2 as [Q2|Q2]; auto.
          right. exists s, s. split; auto. apply lookup_In in Q2. exact Q2.
        * intros O s c I. destruct (J10 O _ _ I) as [?|Q]; auto. right. apply G1. exact Q.
  Qed.

  Lemma end_loop e rs x : hp_open p = false -> rstep the_loop (REnd e) = (rs, x) ->
    received C (P (hp_dst p)) r (rv_origin rs) [] /\
    hop_ok (os_closed (rv_origin rs)) (all_closed (os_closed (rv_origin rs)) (set_nth (hp_dst p) (rv_origin rs) os)) P G (after (hp_wire p) rs).
  Proof.
    intros Op R. unfold the_loop in R. cbn [rstep rv_over rv_origin rv_bcasts] in R. destruct (hp_left p) eqn:Lf; injection R as <- <-.
    - cbn [rv_origin]. rewrite <- Lf. apply unchanged; auto. apply incl_refl.
    - apply leaves; auto. apply incl_refl.
  Qed.

  (** ** A broadcast ends *)
  Lemma read_ended path w rs x :
    hp_wire p = Ended path :: w -> hp_left p = None -> rstep the_loop (RMsg (Ended path)) = (rs, x) ->
    received C (P (hp_dst p)) r (rv_origin rs) [] /\
    hop_ok (os_closed (rv_origin rs)) (all_closed (os_closed (rv_origin rs)) (set_nth (hp_dst p) (rv_origin rs) os)) P G (after w rs).
  Proof.
    intros Hw Lf R. assert (Iw : incl w (hp_wire p)) by (rewrite Hw; intros z Z; right; exact Z).
    unfold the_loop in R. cbn [rstep rv_over rv_origin rv_bcasts rv_map] in R. rewrite Lf in R.
    assert (TR : NoDup (map fst (P (hp_src p))) -> exists b, lookup path (hp_map p) = Some b /\ filter (about path) w = [] /\
                   late_phase C (G (hp_src p) (hp_cons p)) path Done /\
                   (an_over (hp_ann p) = false -> pub_phase (G (hp_src p) (hp_cons p)) (an_tasks (hp_ann p)) path Done)).
    { intros Nd. destruct (h1_travel _ _ _ _ (ho_once _ _ _ _ _ OK Nd) Lf path) as (pr & pp & X1 & X2 & X3 & X4).
      rewrite Hw in X2. cbn [filter about] in X2. rewrite str_eqb_refl in X2. inversion X2; subst. destruct X1 as (b & X1). eauto. }
    destruct (lookup path (hp_map p)) as [b|] eqn:L.
    2:{ injection R as <- <-. rewrite <- Lf. apply leaves; auto. intros Nd. destruct (TR Nd) as (b & X & _). discriminate. }
    injection R as <- <-. cbn [rv_origin]. pose proof (ho_map _ _ _ _ _ OK _ _ L) as Ib. pose proof (Bd _ _ Ib) as Lb.
    rewrite oend_with, Cl. set (C' := set_nth b true C). cbn [os_closed with_closed].
    assert (GR : grows C C') by apply grows_set.
    split.
    - split; cbn [os_closed with_closed]; auto.
      + exists C, [], (with_closed C r), []. repeat split; auto; try apply GR. unfold C'. rewrite set_nth_length. reflexivity.
      + intros c H. apply closedb_set in H as [H|(-> & _)]; auto. right. exists path. rewrite app_nil_r. exact Ib.
    - apply (hop_recv P p (after w _) r); cbn [after hp_src hp_dst hp_cons hp_pre hp_ann hp_wire hp_map hp_left hp_open hp_runs rv_map rv_over rv_bcasts rv_session]; auto; try apply OK.
      + destruct (ho_dst _ _ _ _ _ OK) as (r0 & Hr0 & K2). assert (r0 = r) by congruence. subst r0. intros _. apply K2; exact Lf.
      + unfold C'. rewrite set_nth_length. apply OK.
      + intros s c. rewrite lookup_remove. destruct (str_eqb s path); [discriminate|]. apply OK.
      + apply NoDup_remove. apply OK.
      + intros Nd. destruct (TR Nd) as (b1 & B1 & Fw & Lp & Pp). injection B1 as <-. clear TR.
        destruct (ho_once _ _ _ _ _ OK Nd) as [J1 J2 J3 J4 J5 J6 J7 J8 J9 J10].
        split; cbn [after hp_src hp_dst hp_cons hp_pre hp_ann hp_wire hp_map hp_left hp_open hp_runs rv_map rv_over rv_bcasts rv_session]; auto.
        * congruence.
        * intros s c. rewrite lookup_remove. destruct (str_eqb_spec s path) as [->|Ns]; [discriminate|]. intros H X.
          apply closedb_set in X as [X|(-> & _)]; [exact (J5 _ _ H X)|]. apply Ns. eapply same_path; [|exact Ib]. eapply ho_map; eauto.
        * intros _ s c I. rewrite lookup_remove. destruct (str_eqb_spec s path) as [->|Ns].
          -- intros _. apply closedb_set. right. split; auto. eapply NoDup_fst_in; eauto.
          -- intros H. apply GR. eauto.
        * intros s c I X. apply closedb_set in X as [X|(-> & _)].
          -- destruct (J7 _ _ I X) as [?|(b0 & ? & ?)]; auto. right. exists b0. split; auto. apply GR. auto.
          -- right. rewrite (same_path _ _ _ I Ib). destruct Lp as (b0 & ? & ?). exists b0. split; auto. apply GR. auto.
        * intros s c I Ip. destruct (J8 _ _ I Ip) as (Q1 & Q2). split; auto. rewrite lookup_remove.
          destruct (str_eqb_spec s path) as [->|Ns].
          -- left. apply closedb_set. right. split; auto. eapply NoDup_fst_in; eauto.
          -- destruct Q2 as [Q2|Q2]; auto. left. apply GR. exact Q2.
        * intros _ s. destruct (str_eqb_spec s path) as [->|Ns].
          -- exists Done, Done. rewrite Fw. split; [|split; [constructor|split; auto]].
             ++ split; [apply (in_map fst) in Ib; exact Ib|]. rewrite lookup_remove, str_eqb_refl. reflexivity.
             ++ destruct Lp as (b0 & ? & ?). exists b0. split; auto. apply GR. auto.
          -- destruct (J9 Lf s) as (pr & pp & X1 & X2 & X3 & X4). rewrite Hw in X2. cbn [filter about] in X2.
             destruct (str_eqb_spec s path); [contradiction|]. exists pr, pp. split; [|split; [exact X2|split; auto]].
             ++ destruct pr; cbn in *; rewrite ?lookup_remove; destruct (str_eqb_spec s path); try contradiction; auto.
             ++ destruct pp; cbn in *; auto. destruct X3 as (b0 & ? & ?). exists b0. split; auto. apply GR. auto.
        * intros O s c I. destruct (J10 O _ _ I) as [?|Q]; auto. right. apply GR. exact Q.
  Qed.

  (** ** unused() *)
  Lemma idle_loop rs x : rstep the_loop RUnused = (rs, x) ->
    received C (P (hp_dst p)) r (rv_origin rs) [] /\
    hop_ok (os_closed (rv_origin rs)) (all_closed (os_closed (rv_origin rs)) (set_nth (hp_dst p) (rv_origin rs) os)) P G (after (hp_wire p) rs).
  Proof.
    intros R. unfold the_loop in R. cbn [rstep rv_over rv_origin rv_bcasts rv_map rv_session] in R. destruct (hp_left p) eqn:Lf.
    { injection R as <- <-. rewrite <- Lf. apply unchanged; auto. apply incl_refl. }
    destruct (ho_dst _ _ _ _ _ OK) as (r0 & Hr0 & K2). assert (r0 = r) by congruence. subst r0. destruct (K2 Lf) as (Pr & k0 & Kc).
    destruct (ostep r (OUnused 0)) as [o1 y] eqn:B. destruct (unused_fields _ _ _ _ B) as (Fa & Fc & Ft & Fp).
    destruct (keep_cons _ _ _ _ 0 _ (nd_owf _ _ _ N) B Kc eq_refl) as (k' & X & _).
    assert (Y : y = OIdle false).
    { cbn in B. rewrite Pr in B. injection B as <- <-. f_equal.
      assert (I : In 0 (os_vec r)).
      { destruct (oc_linked k0) eqn:Lk; [apply (v_linked _ (nd_owf _ _ _ N) _ _ Kc Lk)|].
        pose proof (v_unlinked _ (nd_owf _ _ _ N) _ _ Kc Lk) as Al. apply alive_prod in Pr. congruence. }
      apply in_rev in I.
      destruct (pop_closed_suffix (os_cons r) (rev (os_vec r))) as (d & E & D). rewrite E in I. apply in_app_or in I as [I|I].
      - apply D in I. congruence.
      - apply in_rev in I. destruct (rev (pop_closed (os_cons r) (rev (os_vec r)))); [destruct I|reflexivity]. }
    subst y. injection R as <- <-. cbn [rv_origin].
    rewrite Fc, Cl. split.
    - split.
      + exists C, [OUnused 0], o1, [(OUnused 0, OIdle false)]. rewrite Fc, Cl. split; [auto|]. split; [apply grows_refl|]. split; [reflexivity|].
        split; [rewrite <- Cl, with_same; cbn [orun]; rewrite B; reflexivity|]. split; [repeat constructor|]. split; [intros c; repeat constructor|].
        split; [rewrite <- Cl, <- Fc; symmetry; apply with_same|]. cbn. auto.
      + intros c. rewrite Fc, Cl. auto.
      + rewrite Fc, Cl. apply grows_refl.
    - apply (hop_recv P p (after (hp_wire p) _) r); cbn [after hp_src hp_dst hp_cons hp_pre hp_ann hp_wire hp_map hp_left hp_open hp_runs rv_map rv_over rv_bcasts rv_session]; auto; try apply OK; [apply grows_refl| | |].
      + intros _. rewrite Fp. eauto.
      + apply incl_refl.
      + intros Nd. destruct (ho_once _ _ _ _ _ OK Nd) as [J1 J2 J3 J4 J5 J6 J7 J8 J9 J10].
        split; cbn [after hp_src hp_dst hp_cons hp_pre hp_ann hp_wire hp_map hp_left hp_open hp_runs rv_map rv_over rv_bcasts rv_session]; auto. intros _; eauto.
  Qed.

  (** ** The task of a broadcast notices that the session closed *)
  Lemma run_loop b rs x : rstep the_loop (RRun b) = (rs, x) ->
    received C (P (hp_dst p)) r (rv_origin rs) [] /\
    hop_ok (os_closed (rv_origin rs)) (all_closed (os_closed (rv_origin rs)) (set_nth (hp_dst p) (rv_origin rs) os)) P G (after (hp_wire p) rs).
  Proof.
    intros R. unfold the_loop in R. cbn [rstep rv_over rv_origin rv_bcasts rv_map rv_session] in R.
    destruct (hp_open p) eqn:Op; [injection R as <- <-; rewrite <- Op; apply unchanged; auto; apply incl_refl|].
    destruct (nth_error (hp_runs p) b) as [[path []]|] eqn:Hb; try (injection R as <- <-; rewrite <- Op; apply unchanged; auto; apply incl_refl).
    pose proof (ho_true _ _ _ _ _ OK _ _ Hb) as Ib. pose proof (Bd _ _ Ib) as Lb.
    assert (EX : exists C', rv_origin rs = with_closed C' r /\ grows C C' /\ length C' = length C /\
      (forall c, closedb C' c <-> closedb C c \/ (c = b /\ lookup path (hp_map p) <> Some b)) /\
      rs = RSys (with_closed C' r) (hp_map p) (hp_left p) (set_nth b (path, false) (hp_runs p)) false).
    { destruct (match lookup path (hp_map p) with Some b' => Nat.eqb b b' | None => false end) eqn:E.
      - exists C. rewrite <- Cl, with_same. destruct (lookup path (hp_map p)) as [b'|] eqn:L; [|discriminate]. rewrite E in R.
        apply Nat.eqb_eq in E. subst b'. injection R as <- <-. split; [reflexivity|]. split; [apply grows_refl|]. split; [reflexivity|]. split; [|reflexivity]. intros c. split; auto. intros [?|(_ & X)]; [auto|congruence].
      - exists (set_nth b true C). assert (R' : rs = RSys (oend b r) (hp_map p) (hp_left p) (set_nth b (path, false) (hp_runs p)) false).
        { destruct (lookup path (hp_map p)) as [b'|] eqn:L; [rewrite E in R|]; injection R as <- <-; reflexivity. }
        rewrite R'. cbn [rv_origin]. rewrite oend_with, Cl. split; [reflexivity|]. split; [apply grows_set|]. split; [apply set_nth_length|]. split; [|reflexivity].
        intros c. rewrite closedb_set. split; intros [H|(-> & H)]; auto. right. split; auto. intros X. rewrite X, Nat.eqb_refl in E. discriminate. }
    destruct EX as (C' & -> & GR & Ln & CL & ->). clear R. cbn [os_closed with_closed].
    assert (RN : forall c, nth_error (set_nth b (path, false) (hp_runs p)) c = if Nat.eqb c b then Some (path, false) else nth_error (hp_runs p) c).
    { intros c. destruct (Nat.eqb_spec c b) as [->|Nc]; [|apply nth_error_set_ne; auto]. apply nth_error_set_eq. rewrite (ho_runs _ _ _ _ _ OK). exact Lb. }
    split.
    - split; cbn [os_closed with_closed]; auto.
      + exists C, [], (with_closed C r), []. repeat split; auto; apply GR.
      + intros c H. apply CL in H as [H|(-> & _)]; auto. right. exists path. rewrite app_nil_r. exact Ib.
    - apply (hop_recv P p (after (hp_wire p) _) r); cbn [after hp_src hp_dst hp_cons hp_pre hp_ann hp_wire hp_map hp_left hp_open hp_runs rv_map rv_over rv_bcasts rv_session]; auto; try apply OK.
      + destruct (ho_dst _ _ _ _ _ OK) as (r0 & Hr0 & K2). assert (r0 = r) by congruence. subst r0. exact K2.
      + rewrite set_nth_length, Ln. apply OK.
      + apply incl_refl.
      + intros s c I. rewrite RN. destruct (Nat.eqb_spec c b) as [->|Nc]; [|eapply ho_run; eauto]. rewrite (same_path _ _ _ I Ib). eauto.
      + intros s c. rewrite RN. destruct (Nat.eqb_spec c b) as [->|Nc]; [discriminate|]. apply OK.
      + intros Nd. destruct (ho_once _ _ _ _ _ OK Nd) as [J1 J2 J3 J4 J5 J6 J7 J8 J9 J10].
        split; cbn [after hp_src hp_dst hp_cons hp_pre hp_ann hp_wire hp_map hp_left hp_open hp_runs rv_map rv_over rv_bcasts rv_session]; auto.
        * intros L. destruct (J4 L). split; auto.
        * intros s c H X. apply CL in X as [X|(-> & X)]; [exact (J5 _ _ H X)|]. apply X.
          rewrite <- (same_path _ _ _ (ho_map _ _ _ _ _ OK _ _ H) Ib). exact H.
        * intros L s c I H. apply GR. eauto.
        * intros s c. rewrite RN. destruct (Nat.eqb_spec c b) as [->|Nc].
          -- intros [= <-] _. split; auto. destruct (lookup path (hp_map p)) as [b'|] eqn:L.
             ++ destruct (Nat.eq_dec b' b) as [->|Nb]; auto. left. apply CL. right. split; auto. congruence.
             ++ left. apply CL. right. split; auto. discriminate.
          -- intros I Ip. destruct (J8 _ _ I Ip) as (Q1 & [Q2|Q2]); split; auto. left. apply GR. exact Q2.
        * intros L s. destruct (J9 L s) as (pr & pp & X1 & X2 & X3 & X4). exists pr, pp. split; [exact X1|]. split; [exact X2|]. split; [|exact X4].
          destruct pp; cbn in *; auto. destruct X3 as (b0 & ? & ?). exists b0. split; auto. apply GR. auto.
        * intros O s c I. destruct (J10 O _ _ I) as [?|Q]; auto. right. apply GR. exact Q.
  Qed.
End Hop.
