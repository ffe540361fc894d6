From Coq Require Import List Bool Arith Lia.
From Verif.Model Require Import JsWatch.
From Verif.Spec Require Import JsWatchSpec.
Import ListNotations.

(** ** Things that are opened and closed, by number *)
Section Slot.
Context (opn cls : wev -> option nat).
Definition opened (l : wlog) (k : nat) : Prop := exists e, In e l /\ opn e = Some k.
Definition shut (l : wlog) (k : nat) : Prop := exists e, In e l /\ cls e = Some k.
Definition Slot (l : wlog) (cur : option nat) (next : nat) : Prop :=
  (forall k, opened l k /\ ~ shut l k <-> cur = Some k) /\ (forall k, opened l k \/ shut l k -> k < next).
Lemma opened_app l m k : opened (l ++ m) k <-> opened l k \/ opened m k.
Proof. unfold opened. split; [intros (e & H & E); apply in_app_iff in H; destruct H; eauto|intros [(e & H & E)|(e & H & E)]; exists e; rewrite in_app_iff; auto]. Qed.
Lemma shut_app l m k : shut (l ++ m) k <-> shut l k \/ shut m k.
Proof. unfold shut. split; [intros (e & H & E); apply in_app_iff in H; destruct H; eauto|intros [(e & H & E)|(e & H & E)]; exists e; rewrite in_app_iff; auto]. Qed.
Lemma slot_other l m cur next : Forall (fun e => opn e = None /\ cls e = None) m -> Slot l cur next -> Slot (l ++ m) cur next.
Proof.
  intros F [A B]. rewrite Forall_forall in F.
  assert (O : forall k, opened (l ++ m) k <-> opened l k).
  { intros k. rewrite opened_app. split; [|auto]. intros [H|(e & H & E)]; [exact H|]. apply F in H. destruct H; congruence. }
  assert (S : forall k, shut (l ++ m) k <-> shut l k).
  { intros k. rewrite shut_app. split; [|auto]. intros [H|(e & H & E)]; [exact H|]. apply F in H. destruct H; congruence. }
  split; intros k; rewrite O, S; auto.
Qed.
Lemma slot_close l cur next (C : nat -> wev) : (forall k, cls (C k) = Some k /\ opn (C k) = None) -> Slot l cur next -> Slot (l ++ one C cur) None next.
Proof.
  intros HC S. destruct cur as [k|]; [|cbn; rewrite app_nil_r; exact S]. destruct S as [A B]. cbn.
  assert (O : forall j, opened (l ++ [C k]) j <-> opened l j).
  { intros j. rewrite opened_app. split; [|auto]. intros [H|(e & [<-|[]] & E)]; [exact H|]. destruct (HC k); congruence. }
  assert (S : forall j, shut (l ++ [C k]) j <-> shut l j \/ j = k).
  { intros j. rewrite shut_app. split; intros [H|H]; auto.
    - destruct H as (e & [<-|[]] & E). destruct (HC k) as [E' _]. rewrite E' in E. injection E as ->. auto.
    - right. exists (C k). split; [left; reflexivity|]. subst. apply HC. }
  assert (K : k < next) by (apply B; left; apply (A k); reflexivity).
  split; intros j; rewrite O, S.
  - split; [|discriminate]. intros [Ho Hn]. assert (Some k = Some j) by (apply A; tauto). injection H as ->. tauto.
  - intros [H|[H| ->]]; auto.
Qed.
Lemma slot_open l next e : opn e = Some next -> cls e = None -> Slot l None next -> Slot (l ++ [e]) (Some next) (S next).
Proof.
  intros H1 H2 [A B].
  assert (O : forall j, opened (l ++ [e]) j <-> opened l j \/ j = next).
  { intros j. rewrite opened_app. split; intros [H|H]; auto.
    - destruct H as (e' & [<-|[]] & E). rewrite H1 in E. injection E as ->. auto.
    - right. exists e. split; [left; reflexivity|congruence]. }
  assert (S : forall j, shut (l ++ [e]) j <-> shut l j).
  { intros j. rewrite shut_app. split; [|auto]. intros [H|(e' & [<-|[]] & E)]; [exact H|congruence]. }
  assert (N : ~ shut l next) by (intros H; assert (next < next) by (apply B; auto); lia).
  split; intros j; rewrite O, S.
  - split.
    + intros [[H| ->] Hn]; [|reflexivity]. assert (None = Some j) by (apply A; tauto). discriminate.
    + intros H. injection H as <-. auto.
  - intros [[H| ->]|H]; [|lia|]; assert (j < next) by (apply B; auto); lia.
Qed.
End Slot.

Definition o_l e := match e with EListen k _ _ => Some k | _ => None end.
Definition c_l e := match e with EUnlisten k => Some k | _ => None end.
Definition o_c e := match e with EConsume k _ _ => Some k | _ => None end.
Definition c_c e := match e with EClose k => Some k | _ => None end.
Definition o_d e := match e with ELoad k _ => Some k | _ => None end.
Definition c_d e := match e with EUnload k => Some k | _ => None end.

Record LInv (s : watch) (l : wlog) : Prop := {
  l_l : Slot o_l c_l l (w_listen s) (w_nlisten s);
  l_c : Slot o_c c_c l (w_cons s) (w_ncons s);
  l_d : Slot o_d c_d l (w_load s) (length (w_run s));
  l_load : forall k b, nth_error (w_run s) k = Some b -> exists n, In (ELoad k n) l;
  l_end : forall k b, nth_error (w_run s) k = Some b -> (b = false <-> In (EEnd k) l);
  l_endb : forall k, In (EEnd k) l -> k < length (w_run s);
  l_cat : forall k v, w_catalog s = Some (k, v) -> In (ECat k v) l }.

(** Events that say nothing about slots and catalogs *)
Definition note (e : wev) : Prop := match e with EEnable _ | EConn _ | EPath _ | EAnn _ _ | EShow _ | EStatus _ | ECat _ _ => True | _ => False end.

Lemma in_l l k c p : In (EListen k c p) l -> opened o_l l k.
Proof. intros H. exists (EListen k c p). auto. Qed.

Ltac none := repeat constructor; cbn; auto.

Section Keep.
Context (s s' : watch) (l m : wlog).
Context (L : LInv s l).
(** The catalogs are untouched. *)
Lemma L_rest : Slot o_l c_l (l ++ m) (w_listen s') (w_nlisten s') -> Slot o_c c_c (l ++ m) (w_cons s') (w_ncons s') ->
  w_load s' = w_load s -> w_run s' = w_run s -> (forall k v, w_catalog s' = Some (k, v) -> w_catalog s = Some (k, v) \/ In (ECat k v) m) ->
  Forall (fun e => match e with ELoad _ _ | EUnload _ | EEnd _ => False | _ => True end) m -> LInv s' (l ++ m).
Proof.
  intros S1 S2 E1 E2 HC F.
  assert (NE : forall k, In (EEnd k) (l ++ m) <-> In (EEnd k) l).
  { intros k. rewrite in_app_iff. split; [|auto]. intros [H|H]; [exact H|]. rewrite Forall_forall in F. destruct (F _ H). }
  split; try assumption; rewrite ?E1, ?E2.
  - apply slot_other; [|apply (l_d _ _ L)]. revert F. apply Forall_impl. intros []; cbn; tauto.
  - intros k b H. destruct (l_load _ _ L _ _ H) as [n Hn]. exists n. apply in_app_iff. auto.
  - intros k b H. rewrite NE. apply (l_end _ _ L _ _ H).
  - intros k H. apply NE in H. apply (l_endb _ _ L _ H).
  - intros k v H. apply in_app_iff. destruct (HC k v H) as [H'|H']; [left; apply (l_cat _ _ L _ _ H')|auto].
Qed.
End Keep.

Definition fresh_l (s : watch) (l : wlog) : Prop := forall k c p, In (EListen k c p) l -> w_listen s = Some k -> w_conn s = Some c /\ w_path s = p.
Definition fresh_c (s : watch) (l : wlog) : Prop := forall k c p, In (EConsume k c p) l -> w_cons s = Some k -> w_conn s = Some c /\ w_path s = p.
Definition fresh_d (s : watch) (l : wlog) : Prop := forall k n, In (ELoad k n) l -> w_load s = Some k -> w_cons s = Some n.

Definition some {A} (o : option A) : bool := match o with Some _ => true | None => false end.

Lemma active_ok s l : LInv s l -> let r := run_active s in
  LInv (fst r) (l ++ snd r) /\ fresh_l (fst r) (l ++ snd r) /\ some (w_listen (fst r)) = w_en s && some (w_conn s) /\
  (w_en (fst r), w_conn (fst r), w_path (fst r), w_active (fst r), w_cons (fst r), w_load (fst r), w_run (fst r), w_catalog (fst r), w_status (fst r)) =
  (w_en s, w_conn s, w_path s, w_active s, w_cons s, w_load s, w_run s, w_catalog s, w_status s) /\
  Forall (fun e => match e with EListen _ _ _ | EUnlisten _ => True | _ => False end) (snd r) /\
  (snd r = [] \/ exists k, In (EUnlisten k) (snd r) \/ exists c p, In (EListen k c p) (snd r)) /\ (w_listen s <> None \/ some (w_listen (fst r)) = true -> snd r <> []).
Proof.
  intros L. cbn zeta. unfold run_active.
  pose proof (slot_close o_l c_l l _ _ EUnlisten ltac:(cbn; auto) (l_l _ _ L)) as SC.
  assert (FU : Forall (fun e => match e with EListen _ _ _ | EUnlisten _ => True | _ => False end) (one EUnlisten (w_listen s))) by (destruct (w_listen s); none).
  assert (CASE : forall c, let s1 := Watch (w_en s) (w_conn s) (w_path s) (w_active s) None (w_nlisten s) (w_cons s) (w_ncons s) (w_load s) (w_run s) (w_catalog s) (w_status s) in
    LInv s1 (l ++ one EUnlisten (w_listen s)) /\
    LInv (Watch (w_en s) (w_conn s) (w_path s) (w_active s) (Some (w_nlisten s)) (S (w_nlisten s)) (w_cons s) (w_ncons s) (w_load s) (w_run s) (w_catalog s) (w_status s))
      (l ++ one EUnlisten (w_listen s) ++ [EListen (w_nlisten s) c (w_path s)])).
  { intros c. cbn zeta. split.
    - eapply L_rest; try eassumption; try reflexivity; cbn; auto.
      + apply slot_other; [destruct (w_listen s); none|apply (l_c _ _ L)].
      + destruct (w_listen s); none.
    - eapply L_rest; try eassumption; try reflexivity; cbn; auto.
      + rewrite app_assoc. apply slot_open; [reflexivity|reflexivity|exact SC].
      + apply slot_other; [destruct (w_listen s); none|apply (l_c _ _ L)].
      + destruct (w_listen s); none. }
  destruct (w_conn s) as [c|] eqn:EC; [destruct (w_en s) eqn:EE|]; cbn [fst snd w_listen w_en w_conn w_path w_active w_cons w_load w_run w_catalog w_status some andb];
    rewrite ?EC, ?andb_false_r.
  - split; [apply CASE|]. split.
    + intros k c' p H Hk. cbn in *. injection Hk as <-. rewrite !in_app_iff in H. destruct H as [H|[H|[H|[]]]].
      * apply in_l in H. destruct (l_l _ _ L) as [_ B]. specialize (B _ (or_introl H)). lia.
      * destruct (w_listen s); cbn in H; [destruct H as [H|[]]; discriminate|destruct H].
      * injection H as <- <-. auto.
    + split; [reflexivity|]. split; [reflexivity|]. split; [apply Forall_app; split; [exact FU|none]|]. split.
      * right. exists (w_nlisten s). right. exists c, (w_path s). apply in_app_iff. cbn. auto.
      * intros _ H. apply app_eq_nil in H. destruct H; discriminate.
  - split; [apply (CASE c)|]. split; [intros k c' p H Hk; discriminate|]. split; [reflexivity|]. split; [reflexivity|]. split; [exact FU|]. split.
    + destruct (w_listen s) as [k|]; [right; exists k; left; cbn; auto|left; reflexivity].
    + destruct (w_listen s); [discriminate|]. intros [H|H]; [congruence|discriminate].
  - split; [apply (CASE 0)|]. split; [intros k c' p H Hk; discriminate|]. split; [reflexivity|]. split; [reflexivity|]. split; [exact FU|]. split.
    + destruct (w_listen s) as [k|]; [right; exists k; left; cbn; auto|left; reflexivity].
    + destruct (w_listen s); [discriminate|]. intros [H|H]; [congruence|discriminate].
Qed.

Lemma broadcast_ok s l : LInv s l -> let r := run_broadcast s in
  LInv (fst r) (l ++ snd r) /\ fresh_c (fst r) (l ++ snd r) /\ some (w_cons (fst r)) = w_en s && some (w_conn s) && w_active s /\
  (w_en (fst r), w_conn (fst r), w_path (fst r), w_active (fst r), w_listen (fst r), w_load (fst r), w_run (fst r), w_catalog (fst r), w_status (fst r)) =
  (w_en s, w_conn s, w_path s, w_active s, w_listen s, w_load s, w_run s, w_catalog s, w_status s) /\
  Forall (fun e => match e with EConsume _ _ _ | EClose _ => True | _ => False end) (snd r) /\
  (forall c, w_en s = true -> w_conn s = Some c -> w_active s = true -> In (EConsume (w_ncons s) c (w_path s)) (snd r)).
Proof.
  intros L. cbn zeta. unfold run_broadcast.
  pose proof (slot_close o_c c_c l _ _ EClose ltac:(cbn; auto) (l_c _ _ L)) as SC.
  assert (FU : Forall (fun e => match e with EConsume _ _ _ | EClose _ => True | _ => False end) (one EClose (w_cons s))) by (destruct (w_cons s); none).
  assert (CASE : forall c, let s1 := Watch (w_en s) (w_conn s) (w_path s) (w_active s) (w_listen s) (w_nlisten s) None (w_ncons s) (w_load s) (w_run s) (w_catalog s) (w_status s) in
    LInv s1 (l ++ one EClose (w_cons s)) /\
    LInv (Watch (w_en s) (w_conn s) (w_path s) (w_active s) (w_listen s) (w_nlisten s) (Some (w_ncons s)) (S (w_ncons s)) (w_load s) (w_run s) (w_catalog s) (w_status s))
      (l ++ one EClose (w_cons s) ++ [EConsume (w_ncons s) c (w_path s)])).
  { intros c. cbn zeta. split.
    - eapply L_rest; try eassumption; try reflexivity; cbn; auto.
      + apply slot_other; [destruct (w_cons s); none|apply (l_l _ _ L)].
      + destruct (w_cons s); none.
    - eapply L_rest; try eassumption; try reflexivity; cbn; auto.
      + apply slot_other; [destruct (w_cons s); none|apply (l_l _ _ L)].
      + rewrite app_assoc. apply slot_open; [reflexivity|reflexivity|exact SC].
      + destruct (w_cons s); none. }
  destruct (w_conn s) as [c|] eqn:EC; [destruct (w_en s && w_active s) eqn:EE|]; cbn [fst snd w_listen w_en w_conn w_path w_active w_cons w_load w_run w_catalog w_status some];
    rewrite ?EC, ?andb_false_r, ?andb_true_r.
  - apply andb_true_iff in EE. destruct EE as [E1 E2]. split; [apply CASE|]. split.
    + intros k c' p H Hk. cbn in *. injection Hk as <-. rewrite !in_app_iff in H. destruct H as [H|[H|[H|[]]]].
      * destruct (l_c _ _ L) as [_ B]. assert (w_ncons s < w_ncons s) by (apply B; left; exists (EConsume (w_ncons s) c' p); auto). lia.
      * destruct (w_cons s); cbn in H; [destruct H as [H|[]]; discriminate|destruct H].
      * injection H as <- <-. auto.
    + split; [rewrite E1, E2; reflexivity|]. split; [reflexivity|]. split; [apply Forall_app; split; [exact FU|none]|].
      intros c' _ H _. injection H as <-. apply in_app_iff. cbn. auto.
  - split; [apply (CASE c)|]. split; [intros k c' p H Hk; discriminate|]. split; [rewrite EE; reflexivity|]. split; [reflexivity|]. split; [exact FU|].
    intros c' H1 _ H2. rewrite H1, H2 in EE. discriminate.
  - split; [apply (CASE 0)|]. split; [intros k c' p H Hk; discriminate|]. split; [reflexivity|]. split; [reflexivity|]. split; [exact FU|]. intros c' _ H. discriminate.
Qed.

Lemma catalog_ok s l : LInv s l -> let r := run_catalog s in
  LInv (fst r) (l ++ snd r) /\ fresh_d (fst r) (l ++ snd r) /\ some (w_load (fst r)) = w_en s && some (w_cons s) /\
  (w_en (fst r), w_conn (fst r), w_path (fst r), w_active (fst r), w_listen (fst r), w_cons (fst r), w_catalog (fst r)) =
  (w_en s, w_conn s, w_path s, w_active s, w_listen s, w_cons s, w_catalog s) /\
  ((exists n, w_run (fst r) = w_run s ++ [true] /\ w_status (fst r) = Loading /\ snd r = one EUnload (w_load s) ++ [EStatus Loading; ELoad (length (w_run s)) n]) \/
   (w_run (fst r) = w_run s /\ w_status (fst r) = w_status s /\ snd r = one EUnload (w_load s))).
Proof.
  intros L. cbn zeta. unfold run_catalog.
  pose proof (slot_close o_d c_d l _ _ EUnload ltac:(cbn; auto) (l_d _ _ L)) as SC.
  assert (NE : forall k m, In (EEnd k) (l ++ one EUnload (w_load s) ++ m) <-> In (EEnd k) l \/ In (EEnd k) m).
  { intros k m. rewrite !in_app_iff. destruct (w_load s); cbn; intuition discriminate. }
  assert (CASE0 : LInv (Watch (w_en s) (w_conn s) (w_path s) (w_active s) (w_listen s) (w_nlisten s) (w_cons s) (w_ncons s) None (w_run s) (w_catalog s) (w_status s)) (l ++ one EUnload (w_load s))).
  { split; cbn [w_listen w_nlisten w_cons w_ncons w_load w_run w_catalog].
    - apply slot_other; [destruct (w_load s); none|apply (l_l _ _ L)].
    - apply slot_other; [destruct (w_load s); none|apply (l_c _ _ L)].
    - exact SC.
    - intros k b H. destruct (l_load _ _ L _ _ H) as [n Hn]. exists n. apply in_app_iff. auto.
    - intros k b H. rewrite <- (app_nil_r (one _ _)), NE. rewrite (l_end _ _ L _ _ H). cbn. tauto.
    - intros k H. rewrite <- (app_nil_r (one _ _)), NE in H. destruct H as [H|[]]. apply (l_endb _ _ L _ H).
    - intros k v H. apply in_app_iff. left. apply (l_cat _ _ L _ _ H). }
  assert (CASE1 : forall n, LInv (Watch (w_en s) (w_conn s) (w_path s) (w_active s) (w_listen s) (w_nlisten s) (w_cons s) (w_ncons s) (Some (length (w_run s))) (w_run s ++ [true]) (w_catalog s) Loading)
      (l ++ one EUnload (w_load s) ++ [EStatus Loading; ELoad (length (w_run s)) n])).
  { intros n. split; cbn [w_listen w_nlisten w_cons w_ncons w_load w_run w_catalog].
    - apply slot_other; [destruct (w_load s); none|apply (l_l _ _ L)].
    - apply slot_other; [destruct (w_load s); none|apply (l_c _ _ L)].
    - rewrite app_length. cbn [length]. replace (length (w_run s) + 1) with (S (length (w_run s))) by lia.
      replace (l ++ one EUnload (w_load s) ++ [EStatus Loading; ELoad (length (w_run s)) n]) with (((l ++ one EUnload (w_load s)) ++ [EStatus Loading]) ++ [ELoad (length (w_run s)) n])
        by (rewrite <- !app_assoc; reflexivity).
      apply slot_open; [reflexivity|reflexivity|]. apply slot_other; [none|exact SC].
    - intros k b H. destruct (lt_dec k (length (w_run s))) as [Hk|Hk].
      + rewrite nth_error_app1 in H by exact Hk. destruct (l_load _ _ L _ _ H) as [n' Hn]. exists n'. apply in_app_iff. auto.
      + assert (k = length (w_run s)) by (assert (k < length (w_run s ++ [true])) by (apply nth_error_Some; congruence); rewrite app_length in *; cbn in *; lia). subst k.
        exists n. rewrite !in_app_iff. cbn. auto.
    - intros k b H. rewrite NE. destruct (lt_dec k (length (w_run s))) as [Hk|Hk].
      + rewrite nth_error_app1 in H by exact Hk. rewrite (l_end _ _ L _ _ H). cbn. intuition discriminate.
      + rewrite nth_error_app2 in H by lia. destruct (k - length (w_run s)) as [|i]; [|destruct i; discriminate]. cbn in H. injection H as <-.
        split; [discriminate|]. intros [H|H]; [apply (l_endb _ _ L) in H; lia|cbn in H; intuition discriminate].
    - intros k H. rewrite NE in H. rewrite app_length. destruct H as [H|H]; [apply (l_endb _ _ L) in H; lia|cbn in H; intuition discriminate].
    - intros k v H. apply in_app_iff. left. apply (l_cat _ _ L _ _ H). }
  destruct (w_cons s) as [n|] eqn:EC; [destruct (w_en s) eqn:EE|]; cbn [fst snd w_listen w_en w_conn w_path w_active w_cons w_load w_run w_catalog w_status some andb];
    rewrite ?EC, ?andb_false_r.
  - split; [apply CASE1|]. split.
    + intros k n' H Hk. cbn in *. injection Hk as <-. rewrite !in_app_iff in H. destruct H as [H|[H|[H|[H|[]]]]]; try discriminate.
      * destruct (l_d _ _ L) as [_ B]. assert (length (w_run s) < length (w_run s)) by (apply B; left; exists (ELoad (length (w_run s)) n'); auto). lia.
      * destruct (w_load s); cbn in H; [destruct H as [H|[]]; discriminate|destruct H].
      * injection H as <-. reflexivity.
    + split; [reflexivity|]. split; [reflexivity|]. left. exists n. auto.
  - split; [exact CASE0|]. split; [intros k n' H Hk; discriminate|]. split; [reflexivity|]. split; [reflexivity|]. right. auto.
  - split; [exact CASE0|]. split; [intros k n' H Hk; discriminate|]. split; [reflexivity|]. split; [reflexivity|]. right. auto.
Qed.

Lemma running_iff s l k : LInv s l -> running l k <-> nth_error (w_run s) k = Some true.
Proof.
  intros L. split.
  - intros [[n H] N]. destruct (l_d _ _ L) as [_ B]. assert (Hk : k < length (w_run s)) by (apply B; left; exists (ELoad k n); auto).
    apply nth_error_Some in Hk. destruct (nth_error (w_run s) k) as [[]|] eqn:E; [reflexivity| |congruence].
    exfalso. apply N. apply (l_end _ _ L _ _ E). reflexivity.
  - intros H. split; [apply (l_load _ _ L _ _ H)|]. intros Y. apply (l_end _ _ L _ _ H) in Y. discriminate.
Qed.

(** ** Folds *)
Lemma fold_id {A} (f : A -> wev -> A) m x : Forall (fun e => forall y, f y e = y) m -> fold_left f m x = x.
Proof. revert x. induction m as [|e m IH]; intros x F; [reflexivity|]. inversion F; subst. cbn. rewrite H1. apply IH, H2. Qed.
Lemma folds l m : enabled (l ++ m) = fold_left (fun x e => match e with EEnable b => b | _ => x end) m (enabled l) /\
  connection (l ++ m) = fold_left (fun x e => match e with EConn c => c | _ => x end) m (connection l) /\
  path (l ++ m) = fold_left (fun x e => match e with EPath p => p | _ => x end) m (path l) /\
  shown (l ++ m) = fold_left (fun x e => match e with EShow y => y | _ => x end) m (shown l) /\
  state_of (l ++ m) = fold_left (fun x e => match e with EStatus y => y | _ => x end) m (state_of l) /\
  heard (l ++ m) = fold_left (fun x e => match e with EListen _ _ _ | EUnlisten _ => None | EAnn _ a => Some a | _ => x end) m (heard l) /\
  ever_heard (l ++ m) = fold_left (fun x e => match e with EAnn _ a => a | _ => x end) m (ever_heard l).
Proof. unfold enabled, connection, path, shown, state_of, heard, ever_heard. rewrite !fold_left_app. repeat split. Qed.

(** What is seen besides the slots *)
Definition view (l : wlog) := (enabled l, connection l, path l, shown l, ever_heard l).
Lemma view_app l m : Forall (fun e => match e with EEnable _ | EConn _ | EPath _ | EShow _ | EAnn _ _ => False | _ => True end) m -> view (l ++ m) = view l.
Proof.
  intros F. unfold view. destruct (folds l m) as (-> & -> & -> & -> & _ & _ & ->).
  rewrite !fold_id; try reflexivity; revert F; apply Forall_impl; intros []; cbn; tauto.
Qed.
Lemma state_app l m : Forall (fun e => match e with EStatus _ => False | _ => True end) m -> state_of (l ++ m) = state_of l.
Proof. intros F. destruct (folds l m) as (_ & _ & _ & _ & -> & _). apply fold_id. revert F. apply Forall_impl; intros []; cbn; tauto. Qed.
Lemma heard_app l m : Forall (fun e => match e with EListen _ _ _ | EUnlisten _ | EAnn _ _ => False | _ => True end) m -> heard (l ++ m) = heard l.
Proof. intros F. destruct (folds l m) as (_ & _ & _ & _ & _ & -> & _). apply fold_id. revert F. apply Forall_impl; intros []; cbn; tauto. Qed.
Lemma heard_none l m : Forall (fun e => match e with EListen _ _ _ | EUnlisten _ => True | _ => False end) m -> m <> [] -> heard (l ++ m) = None.
Proof.
  intros F N. destruct (folds l m) as (_ & _ & _ & _ & _ & -> & _). generalize (heard l).
  assert (G : forall m, Forall (fun e => match e with EListen _ _ _ | EUnlisten _ => True | _ => False end) m ->
    fold_left (fun x e => match e with EListen _ _ _ | EUnlisten _ => None | EAnn _ a => Some a | _ => x end) m (@None bool) = None).
  { clear. induction m as [|e m IH]; intros F; [reflexivity|]. inversion F; subst. cbn. destruct e; try contradiction; apply IH; assumption. }
  intros x. destruct m as [|e m]; [congruence|]. inversion F; subst. cbn. destruct e; try contradiction; apply G; assumption.
Qed.

(** ** Status and catalog *)
Record SI (s : watch) : Prop := {
  s_idle : (forall k, nth_error (w_run s) k <> Some true) -> w_status s = Offline /\ w_catalog s = None;
  s_cat : forall k v, w_catalog s = Some (k, v) -> nth_error (w_run s) k = Some true;
  s_live : w_status s = Live -> w_catalog s <> None;
  s_off : w_catalog s <> None -> w_status s <> Offline }.
Definition OneI (s : watch) : Prop :=
  (forall i j, nth_error (w_run s) i = Some true -> nth_error (w_run s) j = Some true -> i = j) /\
  (forall i, nth_error (w_run s) i = Some true -> w_status s <> Offline).

Lemma one_pre l m : one_by_one (l ++ m) -> one_by_one l.
Proof. intros H a k n b E. apply (H a k n (b ++ m)). rewrite E, <- app_assoc. reflexivity. Qed.

Lemma nth_snoc (r : list bool) k b : nth_error (r ++ [true]) k = Some b -> nth_error r k = Some b \/ (k = length r /\ b = true).
Proof.
  intros H. destruct (lt_dec k (length r)) as [Hk|Hk]; [rewrite nth_error_app1 in H by exact Hk; auto|].
  rewrite nth_error_app2 in H by lia. destruct (k - length r) as [|i] eqn:E; [|destruct i; discriminate]. cbn in H. injection H as <-. right. split; [lia|reflexivity].
Qed.

Definition restev (e : wev) : Prop := match e with EConsume _ _ _ | EClose _ | EUnload _ | ELoad _ _ | EStatus Loading => True | _ => False end.
Lemma rest_ok f s l : LInv s l -> fresh_l s l -> fresh_d s l -> some (w_load s) = some (w_cons s) -> state_of l = w_status s -> SI s -> (one_by_one l -> OneI s) ->
  let r := run_rest f s in
  LInv (fst r) (l ++ snd r) /\ fresh_l (fst r) (l ++ snd r) /\ fresh_c (fst r) (l ++ snd r) /\ fresh_d (fst r) (l ++ snd r) /\
  some (w_cons (fst r)) = w_en s && some (w_conn s) && w_active s /\ some (w_load (fst r)) = some (w_cons (fst r)) /\
  state_of (l ++ snd r) = w_status (fst r) /\ SI (fst r) /\ (one_by_one (l ++ snd r) -> OneI (fst r)) /\
  (w_en (fst r), w_conn (fst r), w_path (fst r), w_active (fst r), w_listen (fst r), w_catalog (fst r)) = (w_en s, w_conn s, w_path s, w_active s, w_listen s, w_catalog s) /\
  Forall restev (snd r) /\
  (forall c, w_en s = true -> w_conn s = Some c -> w_active s = true -> In (EConsume (w_ncons s) c (w_path s)) (snd r)).
Proof.
  intros L FL FD SD ST HS HO. cbn zeta. unfold run_rest. destruct (broadcast_ok s l L) as (B1 & B2 & B3 & B4 & B5 & B6).
  destruct (run_broadcast s) as [s1 a]. cbn [fst snd] in *. injection B4 as E1 E2 E3 E4 E5 E6 E7 E8 E9.
  assert (HS1 : SI s1) by (destruct HS as [X1 X2 X3 X4]; split; rewrite ?E7, ?E8, ?E9; assumption).
  assert (HO1 : one_by_one (l ++ a) -> OneI s1) by (intros O; apply one_pre in O; specialize (HO O); unfold OneI in *; rewrite E7, E9; exact HO).
  assert (ST1 : state_of (l ++ a) = w_status s1) by (rewrite state_app, E9; [exact ST|revert B5; apply Forall_impl; intros []; cbn; tauto]).
  assert (FL1 : fresh_l s1 (l ++ a)).
  { intros k c p H Hk. rewrite E5 in Hk. rewrite E2, E3. apply in_app_iff in H. destruct H as [H|H]; [eapply FL; eassumption|]. rewrite Forall_forall in B5. destruct (B5 _ H). }
  assert (R1 : Forall restev a) by (revert B5; apply Forall_impl; intros []; cbn; tauto).
  destruct (f || negb (opt_eqb (w_cons s1) (w_cons s))) eqn:EF.
  - destruct (catalog_ok s1 (l ++ a) B1) as (C1 & C2 & C3 & C4 & C5). destruct (run_catalog s1) as [s2 b]. cbn [fst snd] in *.
    injection C4 as G1 G2 G3 G4 G5 G6 G7. rewrite app_assoc.
    assert (R2 : Forall restev b) by (destruct C5 as [(n & _ & _ & ->)|(_ & _ & ->)]; [apply Forall_app; split; [|none]|]; destruct (w_load s1); none).
    split; [exact C1|]. split.
    { intros k c p H Hk. rewrite G5 in Hk. rewrite G2, G3. apply in_app_iff in H. destruct H as [H|H]; [eapply FL1; eassumption|]. rewrite Forall_forall in R2. destruct (R2 _ H). }
    split.
    { intros k c p H Hk. rewrite G6 in Hk. rewrite G2, G3. apply in_app_iff in H. destruct H as [H|H]; [eapply B2; eassumption|].
      destruct C5 as [(n & _ & _ & ->)|(_ & _ & ->)]; rewrite ?in_app_iff in H; destruct (w_load s1); cbn in H; intuition discriminate. }
    split; [exact C2|]. split; [rewrite G6; exact B3|]. split.
    { rewrite C3, G6, E1, B3. destruct (w_en s), (some (w_conn s)), (w_active s); reflexivity. }
    split.
    { destruct C5 as [(n & _ & -> & ->)|(_ & -> & ->)].
      - destruct (folds (l ++ a) (one EUnload (w_load s1) ++ [EStatus Loading; ELoad (length (w_run s1)) n])) as (_ & _ & _ & _ & -> & _). rewrite fold_left_app. reflexivity.
      - rewrite state_app; [exact ST1|]. destruct (w_load s1); none. }
    split.
    { destruct HS1 as [X1 X2 X3 X4]. destruct C5 as [(n & Y1 & Y2 & _)|(Y1 & Y2 & _)]; split; rewrite ?Y1, ?Y2, ?G7; auto.
      - intros H. exfalso. apply (H (length (w_run s1))). rewrite nth_error_app2, Nat.sub_diag by lia. reflexivity.
      - intros k v H. apply X2 in H. rewrite nth_error_app1; [exact H|]. apply nth_error_Some. congruence.
      - discriminate.
      - discriminate. }
    split.
    { intros O. destruct C5 as [(n & Y1 & Y2 & Y3)|(Y1 & Y2 & Y3)].
      - assert (N : forall j, nth_error (w_run s1) j <> Some true).
        { intros j Hj. apply (running_iff s1 (l ++ a) j B1) in Hj. apply (O ((l ++ a) ++ one EUnload (w_load s1) ++ [EStatus Loading]) (length (w_run s1)) n [] ) with (j := j).
          - rewrite Y3, <- !app_assoc. reflexivity.
          - destruct Hj as [[n' Hn] He]. split; [exists n'; apply in_app_iff; auto|]. rewrite !in_app_iff. rewrite in_app_iff in He. destruct (w_load s1); cbn; intuition discriminate. }
        unfold OneI. rewrite Y1, Y2. split; [|discriminate]. intros i j Hi Hj. apply nth_snoc in Hi. apply nth_snoc in Hj.
        destruct Hi as [Hi|[-> _]]; [destruct (N _ Hi)|]. destruct Hj as [Hj|[-> _]]; [destruct (N _ Hj)|]. reflexivity.
      - unfold OneI. rewrite Y1, Y2. apply HO1. eapply one_pre, O. }
    split; [rewrite G1, G2, G3, G4, G5, G7, E1, E2, E3, E4, E5, E8; reflexivity|]. split; [apply Forall_app; auto|].
    intros c H1 H2 H3. apply in_app_iff. left. apply B6; assumption.
  - apply orb_false_iff in EF. destruct EF as [_ EF]. apply negb_false_iff in EF.
    assert (EC : w_cons s1 = w_cons s) by (destruct (w_cons s1), (w_cons s); cbn in EF; try discriminate; try reflexivity; apply Nat.eqb_eq in EF; congruence).
    cbn [fst snd]. split; [exact B1|]. split; [exact FL1|]. split; [exact B2|]. split.
    { intros k n H Hk. rewrite E6 in Hk. rewrite EC. apply in_app_iff in H. destruct H as [H|H]; [eapply FD; eassumption|]. rewrite Forall_forall in B5. destruct (B5 _ H). }
    split; [exact B3|]. split; [rewrite E6, EC; exact SD|]. split; [exact ST1|]. split; [exact HS1|]. split; [exact HO1|].
    split; [rewrite E1, E2, E3, E4, E5, E8; reflexivity|]. split; [exact R1|exact B6].
Qed.

Record Inv (s : watch) (l : wlog) : Prop := {
  i_l : LInv s l; i_fl : fresh_l s l; i_fc : fresh_c s l; i_fd : fresh_d s l;
  i_sl : some (w_listen s) = w_en s && some (w_conn s);
  i_sc : some (w_cons s) = w_en s && some (w_conn s) && w_active s;
  i_sd : some (w_load s) = some (w_cons s);
  i_v : view l = (w_en s, w_conn s, w_path s, w_catalog s, w_active s);
  i_st : state_of l = w_status s;
  i_h : forall b, heard l = Some b -> b = w_active s /\ w_listen s <> None;
  i_s : SI s;
  i_o : one_by_one l -> OneI s }.

Definition with_want (s : watch) (b : bool) (c : option nat) (p : nat) (a : bool) : watch :=
  Watch b c p a (w_listen s) (w_nlisten s) (w_cons s) (w_ncons s) (w_load s) (w_run s) (w_catalog s) (w_status s).
Definition wantev (e : wev) : Prop := match e with EEnable _ | EConn _ | EPath _ => True | _ => False end.

Lemma L_note s l b c p a e : LInv s l -> (wantev e \/ exists k x, e = EAnn k x) -> LInv (with_want s b c p a) (l ++ [e]).
Proof.
  intros L He. eapply L_rest; try eassumption; try reflexivity; cbn [with_want w_listen w_nlisten w_cons w_ncons w_catalog]; auto.
  - apply slot_other; [|apply (l_l _ _ L)]. constructor; [|constructor]. destruct e, He as [He|(k' & y' & He)]; try discriminate; try contradiction; split; reflexivity.
  - apply slot_other; [|apply (l_c _ _ L)]. constructor; [|constructor]. destruct e, He as [He|(k' & y' & He)]; try discriminate; try contradiction; split; reflexivity.
  - constructor; [|constructor]. destruct e, He as [He|(k' & y' & He)]; try discriminate; try contradiction; exact Logic.I.
Qed.

Lemma all_ok f s l b c p e : Inv s l -> wantev e -> let s0 := with_want s b c p (w_active s) in
  view (l ++ [e]) = (b, c, p, w_catalog s, w_active s) -> let r := run_all f s0 in Inv (fst r) (l ++ e :: snd r).
Proof.
  intros I He s0 HV. cbn zeta. unfold run_all.
  assert (L0 : LInv s0 (l ++ [e])) by (apply L_note; [apply (i_l _ _ I)|auto]).
  destruct (active_ok s0 (l ++ [e]) L0) as (A1 & A2 & A3 & A4 & A5 & _ & A7). destruct (run_active s0) as [s1 x]. cbn [fst snd] in *.
  injection A4 as E1 E2 E3 E4 E5 E6 E7 E8 E9. cbn [s0 with_want w_en w_conn w_path w_active w_cons w_load w_run w_catalog w_status w_listen] in *.
  set (l1 := (l ++ [e]) ++ x) in *.
  assert (NL : forall k n, In (ELoad k n) l1 -> In (ELoad k n) l).
  { intros k n H. unfold l1 in H. rewrite !in_app_iff in H. destruct H as [[H|[H|[]]]|H]; [exact H|subst e; contradiction|]. rewrite Forall_forall in A5. destruct (A5 _ H). }
  assert (FD1 : fresh_d s1 l1) by (intros k n H Hk; rewrite E6 in Hk; rewrite E5; eapply (i_fd _ _ I); [apply NL, H|exact Hk]).
  assert (ST1 : state_of l1 = w_status s1).
  { unfold l1. rewrite E9, !state_app; [apply (i_st _ _ I)| |]; [constructor; [destruct e; try contradiction; exact Logic.I|constructor]|revert A5; apply Forall_impl; intros []; cbn; tauto]. }
  assert (S1 : SI s1) by (destruct (i_s _ _ I); split; rewrite ?E7, ?E8, ?E9; assumption).
  assert (O1 : one_by_one l1 -> OneI s1).
  { intros O. unfold OneI. rewrite E7, E9. apply (i_o _ _ I). unfold l1 in O. apply one_pre, one_pre in O. exact O. }
  assert (SD1 : some (w_load s1) = some (w_cons s1)) by (rewrite E5, E6; apply (i_sd _ _ I)).
  destruct (rest_ok f s1 l1 A1 A2 FD1 SD1 ST1 S1 O1) as (R1 & R2 & R3 & R4 & R5 & R6 & R7 & R8 & R9 & R10 & R11 & _).
  destruct (run_rest f s1) as [s2 y]. cbn [fst snd] in *. injection R10 as G1 G2 G3 G4 G5 G6.
  replace (l ++ e :: x ++ y) with (l1 ++ y) by (unfold l1; rewrite <- !app_assoc; reflexivity).
  split; try assumption.
  - rewrite G5, G1, G2, E1, E2. exact A3.
  - rewrite G1, G2, G4. exact R5.
  - rewrite view_app; [|revert R11; apply Forall_impl; intros []; cbn; tauto]. unfold l1. rewrite view_app; [|revert A5; apply Forall_impl; intros []; cbn; tauto].
    rewrite HV, G1, G2, G3, G4, G6, E1, E2, E3, E4, E8. reflexivity.
  - intros b' H. rewrite heard_app in H by (revert R11; apply Forall_impl; intros []; cbn; tauto).
    destruct x as [|x0 x]; [|unfold l1 in H; rewrite heard_none in H; [discriminate|exact A5|discriminate]].
    unfold l1 in H. rewrite app_nil_r, heard_app in H by (constructor; [destruct e; try contradiction; exact Logic.I|constructor]).
    apply (i_h _ _ I) in H. destruct H as [_ H]. exfalso. apply A7; auto.
Qed.

Lemma stop_nth r k j : nth_error (stop r k) j = if Nat.eqb j k then option_map (fun _ => false) (nth_error r j) else nth_error r j.
Proof.
  revert k j. induction r as [|b r IH]; intros k j.
  - destruct k; cbn; destruct j; cbn; try reflexivity; destruct (Nat.eqb _ _); reflexivity.
  - destruct k; cbn; destruct j; cbn; try reflexivity. apply IH.
Qed.
Lemma stop_len r k : length (stop r k) = length r.
Proof. revert k. induction r as [|b r IH]; intros [|k]; cbn; auto. Qed.

Lemma view_note s l e : Inv s l -> wantev e -> view (l ++ [e]) =
  (match e with EEnable b => b | _ => w_en s end, match e with EConn c => c | _ => w_conn s end, match e with EPath p => p | _ => w_path s end, w_catalog s, w_active s).
Proof.
  intros I He. pose proof (i_v _ _ I) as V. unfold view in *. destruct (folds l [e]) as (-> & -> & -> & -> & _ & _ & ->).
  injection V as -> -> -> -> ->. destruct e; try contradiction; reflexivity.
Qed.

Lemma step_inv s l o : Inv s l -> Inv (fst (w_step s o)) (l ++ snd (w_step s o)).
Proof.
  intros I. assert (I0 : Inv s (l ++ [])) by (rewrite app_nil_r; exact I). destruct o as [b|c|p|k a|k v|k]; cbn [w_step].
  - destruct (Bool.eqb b (w_en s)); [exact I0|]. cbn [emit fst snd]. apply (all_ok true s l b (w_conn s) (w_path s) (EEnable b) I Logic.I). apply (view_note s l (EEnable b) I Logic.I).
  - destruct (opt_eqb c (w_conn s)); [exact I0|]. cbn [emit fst snd]. apply (all_ok false s l (w_en s) c (w_path s) (EConn c) I Logic.I). apply (view_note s l (EConn c) I Logic.I).
  - destruct (Nat.eqb p (w_path s)); [exact I0|]. cbn [emit fst snd]. apply (all_ok false s l (w_en s) (w_conn s) p (EPath p) I Logic.I). apply (view_note s l (EPath p) I Logic.I).
  - destruct (opt_eqb (Some k) (w_listen s)) eqn:EK; [|exact I0].
    assert (HK : w_listen s = Some k) by (destruct (w_listen s); cbn in EK; [apply Nat.eqb_eq in EK; congruence|discriminate]). clear I0.
    assert (L0 : LInv (with_want s (w_en s) (w_conn s) (w_path s) a) (l ++ [EAnn k a])) by (apply L_note; [apply (i_l _ _ I)|eauto]).
    assert (V0 : view (l ++ [EAnn k a]) = (w_en s, w_conn s, w_path s, w_catalog s, a)).
    { pose proof (i_v _ _ I) as V. unfold view in *. destruct (folds l [EAnn k a]) as (-> & -> & -> & -> & _ & _ & ->). injection V as -> -> -> -> _. reflexivity. }
    assert (H0 : heard (l ++ [EAnn k a]) = Some a) by (destruct (folds l [EAnn k a]) as (_ & _ & _ & _ & _ & -> & _); reflexivity).
    assert (ST0 : state_of (l ++ [EAnn k a]) = w_status s) by (rewrite state_app; [apply (i_st _ _ I)|none]).
    assert (FL0 : fresh_l s (l ++ [EAnn k a])) by (intros j c p H; apply in_app_iff in H; destruct H as [H|[H|[]]]; [eapply (i_fl _ _ I), H|discriminate]).
    assert (FC0 : fresh_c s (l ++ [EAnn k a])) by (intros j c p H; apply in_app_iff in H; destruct H as [H|[H|[]]]; [eapply (i_fc _ _ I), H|discriminate]).
    assert (FD0 : fresh_d s (l ++ [EAnn k a])) by (intros j n H; apply in_app_iff in H; destruct H as [H|[H|[]]]; [eapply (i_fd _ _ I), H|discriminate]).
    assert (O0 : one_by_one (l ++ [EAnn k a]) -> OneI s) by (intros O; apply (i_o _ _ I); eapply one_pre, O).
    destruct (Bool.eqb a (w_active s)) eqn:EA.
    + apply eqb_prop in EA. subst a. cbn [emit fst snd]. destruct I. split; try assumption.
      * replace s with (with_want s (w_en s) (w_conn s) (w_path s) (w_active s)) by (destruct s; reflexivity). exact L0.
      * intros b H. rewrite H0 in H. injection H as <-. split; [reflexivity|congruence].
    + cbn [emit fst snd].
      change (Watch (w_en s) (w_conn s) (w_path s) a (w_listen s) (w_nlisten s) (w_cons s) (w_ncons s) (w_load s) (w_run s) (w_catalog s) (w_status s)) with (with_want s (w_en s) (w_conn s) (w_path s) a).
      set (s0 := with_want s (w_en s) (w_conn s) (w_path s) a) in *. set (l0 := l ++ [EAnn k a]) in *.
      assert (S0 : SI s0) by (destruct (i_s _ _ I); split; assumption).
      destruct (rest_ok false s0 l0 L0 FL0 FD0 (i_sd _ _ I) ST0 S0 O0) as (R1 & R2 & R3 & R4 & R5 & R6 & R7 & R8 & R9 & R10 & R11 & _).
      destruct (run_rest false s0) as [s2 y]. cbn [fst snd] in *. injection R10 as G1 G2 G3 G4 G5 G6.
      replace (l ++ EAnn k a :: y) with (l0 ++ y) by (unfold l0; rewrite <- app_assoc; reflexivity).
      split; try assumption.
      * rewrite G5, G1, G2. apply (i_sl _ _ I).
      * rewrite G1, G2, G4. exact R5.
      * rewrite view_app by (revert R11; apply Forall_impl; intros []; cbn; tauto). rewrite V0, G1, G2, G3, G4, G6. reflexivity.
      * intros b H. rewrite heard_app in H by (revert R11; apply Forall_impl; intros []; cbn; tauto). rewrite H0 in H. injection H as <-. rewrite G4, G5. split; [reflexivity|]. cbn. congruence.
  - destruct (nth_error (w_run s) k) as [[]|] eqn:EN; try exact I0. destruct (opt_eqb (Some k) (w_load s)) eqn:EK; [|exact I0]. cbn [fst snd].
    destruct I as [L FL FC FD SL SC SD V ST H S O]. split; cbn [w_en w_conn w_path w_active w_listen w_cons w_load w_catalog w_status]; try assumption.
    + eapply L_rest; try eassumption; try reflexivity.
      * apply slot_other; [none|apply (l_l _ _ L)].
      * apply slot_other; [none|apply (l_c _ _ L)].
      * cbn. intros k' v' E. injection E as <- <-. auto.
      * none.
    + intros j c p X. rewrite in_app_iff in X. cbn in X. destruct X as [X|X]; [eapply FL, X|intuition discriminate].
    + intros j c p X. rewrite in_app_iff in X. cbn in X. destruct X as [X|X]; [eapply FC, X|intuition discriminate].
    + intros j n X. rewrite in_app_iff in X. cbn in X. destruct X as [X|X]; [eapply FD, X|intuition discriminate].
    + unfold view in *. destruct (folds l [ECat k v; EShow (Some (k, v)); EStatus Live]) as (-> & -> & -> & -> & _ & _ & ->). injection V as -> -> -> _ ->. reflexivity.
    + destruct (folds l [ECat k v; EShow (Some (k, v)); EStatus Live]) as (_ & _ & _ & _ & -> & _). reflexivity.
    + intros b. rewrite heard_app by none. apply H.
    + split; cbn; try discriminate.
      * intros X. destruct (X k EN).
      * intros k' v' E. injection E as <- <-. exact EN.
    + intros X. apply one_pre in X. destruct (O X) as [O1 O2]. split; cbn; [exact O1|discriminate].
  - destruct (nth_error (w_run s) k) as [[]|] eqn:EN; try exact I0. cbn [fst snd].
    destruct I as [L FL FC FD SL SC SD V ST H S O]. split; cbn [w_en w_conn w_path w_active w_listen w_cons w_load w_catalog w_status]; try assumption.
    + assert (NE : forall j, In (EEnd j) (l ++ [EEnd k; EShow None; EStatus Offline]) <-> In (EEnd j) l \/ j = k).
      { intros j. rewrite in_app_iff. cbn. intuition (try discriminate; try congruence). }
      split; cbn [w_listen w_nlisten w_cons w_ncons w_load w_run w_catalog]; rewrite ?stop_len.
      * apply slot_other; [none|apply (l_l _ _ L)].
      * apply slot_other; [none|apply (l_c _ _ L)].
      * apply slot_other; [none|apply (l_d _ _ L)].
      * intros j b Hj. rewrite stop_nth in Hj. assert (X : exists b', nth_error (w_run s) j = Some b') by (destruct (Nat.eqb j k); [destruct (nth_error (w_run s) j); [eauto|discriminate]|eauto]).
        destruct X as [b' X]. destruct (l_load _ _ L _ _ X) as [n Hn]. exists n. apply in_app_iff. auto.
      * intros j b Hj. rewrite NE. rewrite stop_nth in Hj. destruct (Nat.eqb_spec j k) as [->|N].
        -- rewrite EN in Hj. cbn in Hj. injection Hj as <-. tauto.
        -- rewrite (l_end _ _ L _ _ Hj). tauto.
      * intros j Hj. apply NE in Hj. destruct Hj as [Hj| ->]; [apply (l_endb _ _ L _ Hj)|]. apply nth_error_Some. congruence.
      * discriminate.
    + intros j c p X. rewrite in_app_iff in X. cbn in X. destruct X as [X|X]; [eapply FL, X|intuition discriminate].
    + intros j c p X. rewrite in_app_iff in X. cbn in X. destruct X as [X|X]; [eapply FC, X|intuition discriminate].
    + intros j n X. rewrite in_app_iff in X. cbn in X. destruct X as [X|X]; [eapply FD, X|intuition discriminate].
    + unfold view in *. destruct (folds l [EEnd k; EShow None; EStatus Offline]) as (-> & -> & -> & -> & _ & _ & ->). injection V as -> -> -> _ ->. reflexivity.
    + destruct (folds l [EEnd k; EShow None; EStatus Offline]) as (_ & _ & _ & _ & -> & _). reflexivity.
    + intros b. rewrite heard_app by none. apply H.
    + split; cbn; try discriminate; auto; congruence.
    + intros X. apply one_pre in X. destruct (O X) as [O1 O2].
      assert (N : forall j, nth_error (stop (w_run s) k) j <> Some true).
      { intros j Hj. rewrite stop_nth in Hj. destruct (Nat.eqb_spec j k) as [E|N]; [rewrite E, EN in Hj; discriminate|]. apply N. apply O1; assumption. }
      split; cbn; intros i; [intros j Hi|intros Hi]; destruct (N _ Hi).
Qed.

Lemma run_inv ops : forall s l, Inv s l -> Inv (fst (w_run_ops s ops)) (l ++ snd (w_run_ops s ops)).
Proof.
  induction ops as [|o ops IH]; intros s l I; [cbn; rewrite app_nil_r; exact I|]. cbn [w_run_ops].
  pose proof (step_inv s l o I) as J. destruct (w_step s o) as [s1 a]. cbn [fst snd] in J. specialize (IH _ _ J).
  destruct (w_run_ops s1 ops) as [s2 b]. cbn [fst snd] in *. rewrite app_assoc. exact IH.
Qed.
Lemma init_inv : Inv w_init [].
Proof.
  assert (N : forall A k, nth_error (@nil A) k = None) by (intros A [|k]; reflexivity).
  assert (S : forall o c, Slot o c [] None 0).
  { intros o c. split; intros k; [split; [intros [(e & [] & _) _]|discriminate]|intros [(e & [] & _)|(e & [] & _)]]. }
  split; try reflexivity; try (intros ? ? ? []); try (intros ? ? []).
  - split; cbn; try apply S; try (intros k b H; rewrite N in H; discriminate); try discriminate. intros k [].
  - match goal with H : In _ [] |- _ => destruct H end.
  - intros b H. discriminate H.
  - split; cbn; try discriminate; auto; congruence.
  - intros _. split; cbn; intros i; [intros j Hi|intros Hi]; rewrite N in Hi; discriminate.
Qed.
Lemma reach ops : Inv (fst (w_run_ops w_init ops)) (snd (w_run_ops w_init ops)).
Proof. apply (run_inv ops w_init [] init_inv). Qed.
Lemma run_app s a b : w_run_ops s (a ++ b) = let (s1, x) := w_run_ops s a in let (s2, y) := w_run_ops s1 b in (s2, x ++ y).
Proof.
  revert s. induction a as [|o a IH]; intros s; cbn [app w_run_ops].
  - destruct (w_run_ops s b). reflexivity.
  - destruct (w_step s o) as [s1 x]. rewrite IH. destruct (w_run_ops s1 a) as [s2 y]. destruct (w_run_ops s2 b) as [s3 z]. rewrite app_assoc. reflexivity.
Qed.

(** ** The claims *)
Lemma consumed_iff s l n : LInv s l -> (exists c p, consumed l n c p) <-> w_cons s = Some n.
Proof.
  intros L. destruct (l_c _ _ L) as [A _]. rewrite <- A. unfold consumed, opened, shut. split.
  - intros (c & p & H1 & H2). split; [exists (EConsume n c p); auto|]. intros (e & He & E). destruct e; try discriminate. injection E as ->. contradiction.
  - intros [(e & He & E) H2]. destruct e; try discriminate. injection E as ->. exists c, p. split; [exact He|]. intros X. apply H2. exists (EClose n). auto.
Qed.
Lemma listening_iff s l n : LInv s l -> (exists c p, listening l n c p) <-> w_listen s = Some n.
Proof.
  intros L. destruct (l_l _ _ L) as [A _]. rewrite <- A. unfold listening, opened, shut. split.
  - intros (c & p & H1 & H2). split; [exists (EListen n c p); auto|]. intros (e & He & E). destruct e; try discriminate. injection E as ->. contradiction.
  - intros [(e & He & E) H2]. destruct e; try discriminate. injection E as ->. exists c, p. split; [exact He|]. intros X. apply H2. exists (EUnlisten n). auto.
Qed.
Lemma loads_iff s l k : LInv s l -> (exists n, loads l k n) <-> w_load s = Some k.
Proof.
  intros L. destruct (l_d _ _ L) as [A _]. rewrite <- A. unfold loads, opened, shut. split.
  - intros (n & H1 & H2). split; [exists (ELoad k n); auto|]. intros (e & He & E). destruct e; try discriminate. injection E as ->. contradiction.
  - intros [(e & He & E) H2]. destruct e; try discriminate. injection E as ->. exists n. split; [exact He|]. intros X. apply H2. exists (EUnload k). auto.
Qed.

Lemma consumed_exact ops : let l := snd (w_run_ops w_init ops) in
  (exists n c p, consumed l n c p) <-> enabled l = true /\ connection l <> None /\ ever_heard l = true.
Proof.
  cbn zeta. pose proof (reach ops) as I. destruct (w_run_ops w_init ops) as [s l]. cbn [fst snd] in *.
  pose proof (i_v _ _ I) as V. injection V as -> -> _ _ ->. pose proof (i_sc _ _ I) as SC. split.
  - intros (n & H). apply (consumed_iff _ _ _ (i_l _ _ I)) in H. rewrite H in SC. cbn in SC. symmetry in SC. apply andb_true_iff in SC. destruct SC as [SC H3].
    apply andb_true_iff in SC. destruct SC as [H1 H2]. split; [exact H1|]. split; [|exact H3]. destruct (w_conn s); [discriminate|cbn in H2; discriminate].
  - intros (H1 & H2 & H3). rewrite H1, H3 in SC. destruct (w_conn s) as [c|]; [|congruence]. cbn in SC. destruct (w_cons s) as [n|] eqn:E; [|discriminate].
    exists n. apply (consumed_iff _ _ _ (i_l _ _ I)). exact E.
Qed.
Lemma follows ops b : let l := snd (w_run_ops w_init ops) in heard l = Some b -> ((exists n c p, consumed l n c p) <-> b = true).
Proof.
  cbn zeta. intros H. pose proof (reach ops) as I. destruct (w_run_ops w_init ops) as [s l]. cbn [fst snd] in *.
  destruct (i_h _ _ I _ H) as [-> HL]. pose proof (i_sc _ _ I) as SC. pose proof (i_sl _ _ I) as SL.
  destruct (w_listen s) as [k|]; [|congruence]. cbn in SL. rewrite <- SL in SC. cbn in SC. rewrite <- SC. split.
  - intros (n & X). apply (consumed_iff _ _ _ (i_l _ _ I)) in X. rewrite X. reflexivity.
  - intros X. destruct (w_cons s) as [n|] eqn:E; [|discriminate]. exists n. apply (consumed_iff _ _ _ (i_l _ _ I)). exact E.
Qed.
Lemma current ops : let l := snd (w_run_ops w_init ops) in
  (forall n c p, consumed l n c p -> enabled l = true /\ connection l = Some c /\ path l = p) /\
  (forall n m c p d q, consumed l n c p -> consumed l m d q -> n = m) /\
  (forall k c p, listening l k c p -> enabled l = true /\ connection l = Some c /\ path l = p) /\
  (forall k j c p d q, listening l k c p -> listening l j d q -> k = j) /\
  (enabled l = true -> forall c, connection l = Some c -> exists k, listening l k c (path l)).
Proof.
  cbn zeta. pose proof (reach ops) as I. destruct (w_run_ops w_init ops) as [s l]. cbn [fst snd] in *.
  pose proof (i_v _ _ I) as V. injection V as -> -> -> _ _.
  assert (C : forall n c p, consumed l n c p -> w_cons s = Some n) by (intros n c p H; apply (consumed_iff _ _ _ (i_l _ _ I)); eauto).
  assert (L : forall n c p, listening l n c p -> w_listen s = Some n) by (intros n c p H; apply (listening_iff _ _ _ (i_l _ _ I)); eauto).
  pose proof (i_sc _ _ I) as SC. pose proof (i_sl _ _ I) as SL.
  split; [|split; [|split; [|split]]].
  - intros n c p H. split; [|destruct H as [H H']; eapply (i_fc _ _ I); [exact H|eapply C; split; eassumption]].
    apply C in H. rewrite H in SC. cbn in SC. destruct (w_en s); [reflexivity|discriminate].
  - intros n m c p d q H1 H2. apply C in H1. apply C in H2. congruence.
  - intros n c p H. split; [|destruct H as [H H']; eapply (i_fl _ _ I); [exact H|eapply L; split; eassumption]].
    apply L in H. rewrite H in SL. cbn in SL. destruct (w_en s); [reflexivity|discriminate].
  - intros n m c p d q H1 H2. apply L in H1. apply L in H2. congruence.
  - intros H1 c H2. rewrite H1, H2 in SL. cbn in SL. destruct (w_listen s) as [k|] eqn:E; [|discriminate]. exists k.
    assert (X : exists c p, listening l k c p) by (apply (listening_iff _ _ _ (i_l _ _ I)); exact E). destruct X as (c' & p & X).
    destruct (i_fl _ _ I _ _ _ (proj1 X) E) as [Y1 Y2]. rewrite H2 in Y1. injection Y1 as <-. rewrite Y2. exact X.
Qed.
Lemma anew ops k : let l := snd (w_run_ops w_init ops) in let m := snd (w_run_ops w_init (ops ++ [WAnn k true])) in
  forall c p, listening l k c p -> ever_heard l = false -> exists n, ~ In (EConsume n c p) l /\ consumed m n c p /\ state_of m = Loading.
Proof.
  cbn zeta. intros c p H1 H2. pose proof (reach ops) as I. pose proof (reach (ops ++ [WAnn k true])) as J. rewrite run_app in *.
  destruct (w_run_ops w_init ops) as [s l]. cbn [fst snd w_run_ops] in *.
  assert (HL : w_listen s = Some k) by (apply (listening_iff _ _ _ (i_l _ _ I)); eauto).
  pose proof (i_v _ _ I) as V. assert (HA : w_active s = false) by (injection V as _ _ _ _ E; congruence). clear V.
  destruct (i_fl _ _ I _ _ _ (proj1 H1) HL) as [HC HP]. pose proof (i_sl _ _ I) as SL. rewrite HL, HC in SL. cbn in SL. rewrite andb_true_r in SL.
  assert (HN : w_cons s = None) by (pose proof (i_sc _ _ I) as SC; rewrite HA, andb_false_r in SC; destruct (w_cons s); [discriminate|reflexivity]).
  assert (E : w_step s (WAnn k true) =
    (Watch true (Some c) p true (Some k) (w_nlisten s) (Some (w_ncons s)) (S (w_ncons s)) (Some (length (w_run s))) (w_run s ++ [true]) (w_catalog s) Loading,
     EAnn k true :: EConsume (w_ncons s) c p :: one EUnload (w_load s) ++ [EStatus Loading; ELoad (length (w_run s)) (w_ncons s)])).
  { cbn [w_step]. rewrite HL, HA. cbn [opt_eqb]. rewrite Nat.eqb_refl. cbn [Bool.eqb]. unfold run_rest, run_broadcast.
    cbn [w_en w_conn w_path w_active w_listen w_nlisten w_cons w_ncons w_load w_run w_catalog w_status]. rewrite HC, HN, <- SL. cbn [andb one app w_cons opt_eqb negb orb].
    unfold run_catalog. cbn [w_en w_conn w_path w_active w_listen w_nlisten w_cons w_ncons w_load w_run w_catalog w_status emit fst snd app]. rewrite HP. reflexivity. }
  rewrite E in *. cbn [fst snd] in *. rewrite app_nil_r in *.
  assert (B : forall k, opened o_c l k \/ shut c_c l k -> k < w_ncons s) by (destruct (l_c _ _ (i_l _ _ I)); assumption).
  exists (w_ncons s). split; [|split; [split|]].
  - intros X. assert (w_ncons s < w_ncons s) by (apply B; left; exists (EConsume (w_ncons s) c p); auto). lia.
  - rewrite in_app_iff. cbn. auto.
  - rewrite in_app_iff. intros [X|X]; [assert (w_ncons s < w_ncons s) by (apply B; right; exists (EClose (w_ncons s)); auto); lia|].
    cbn in X. destruct X as [X|[X|X]]; try discriminate. rewrite in_app_iff in X. destruct (w_load s); cbn in X; intuition discriminate.
  - apply (i_st _ _ J).
Qed.

Lemma status_ok ops : let l := snd (w_run_ops w_init ops) in
  (state_of l = Live -> shown l <> None) /\ (shown l <> None -> state_of l <> Offline) /\ ((forall k, ~ running l k) -> state_of l = Offline /\ shown l = None) /\
  (forall k v, shown l = Some (k, v) -> running l k /\ In (ECat k v) l).
Proof.
  cbn zeta. pose proof (reach ops) as I. destruct (w_run_ops w_init ops) as [s l]. cbn [fst snd] in *.
  rewrite (i_st _ _ I). pose proof (i_v _ _ I) as V. injection V as _ _ _ -> _. destruct (i_s _ _ I) as [S1 S2 S3 S4].
  split; [exact S3|]. split; [exact S4|]. split.
  - intros H. apply S1. intros k Hk. apply (H k). apply (running_iff s l k (i_l _ _ I)), Hk.
  - intros k v H. split; [apply (running_iff s l k (i_l _ _ I)); eapply S2, H|apply (l_cat _ _ (i_l _ _ I)), H].
Qed.
Lemma status_one ops : let l := snd (w_run_ops w_init ops) in one_by_one l -> (state_of l = Offline <-> forall k, ~ running l k).
Proof.
  cbn zeta. intros O. pose proof (reach ops) as I. pose proof (status_ok ops) as (_ & _ & S & _). cbn zeta in S.
  destruct (w_run_ops w_init ops) as [s l]. cbn [fst snd] in *. split.
  - intros H k Hk. apply (running_iff s l k (i_l _ _ I)) in Hk. destruct (i_o _ _ I O) as [_ O2]. apply (O2 _ Hk). rewrite <- (i_st _ _ I). exact H.
  - intros H. apply S, H.
Qed.
Lemma catalog_current ops k v : let l := snd (w_run_ops w_init ops) in
  (forall j, running l j -> exists n, loads l j n) -> shown l = Some (k, v) -> exists n, loads l k n /\ consumed l n match connection l with Some c => c | None => 0 end (path l).
Proof.
  cbn zeta. intros A H. pose proof (reach ops) as I. pose proof (status_ok ops) as (_ & _ & _ & S). cbn zeta in S. destruct (current ops) as (C & _). cbn zeta in C.
  destruct (w_run_ops w_init ops) as [s l]. cbn [fst snd] in *. destruct (S _ _ H) as [R _]. destruct (A _ R) as [n Hn]. exists n. split; [exact Hn|].
  assert (HL : w_load s = Some k) by (apply (loads_iff _ _ _ (i_l _ _ I)); eauto). assert (HC : w_cons s = Some n) by (eapply (i_fd _ _ I); [apply Hn|exact HL]).
  apply (consumed_iff _ _ _ (i_l _ _ I)) in HC. destruct HC as (c & p & HC). destruct (C _ _ _ HC) as (_ & -> & ->). exact HC.
Qed.
