From Coq Require Import NArith ZArith List Lia Bool Permutation.
From Coq Require Import Init.Byte Strings.Byte.
From Coq Require Import ZifyBool ZifyNat ZifyN.
From Verif.Model Require Import Base Coding Message.
From Verif.Spec Require Import CodingSpec MessageSpec.
From Verif.Proofs Require Import BaseP CodingP.
Import ListNotations.
Open Scope N_scope.

Section W.
Variable w : N.

Lemma good_status : good status_decode.
Proof.
  apply good_bind; [apply good_u8|]. intros b.
  destruct (n_of b) as [|[|p|]]; auto using good_ret, good_fail.
Qed.
Lemma eats_status : eats status_decode.
Proof.
  apply eats_bind; [apply eats_u8|]. intros b.
  destruct (n_of b) as [|[|p|]]; auto using good_ret, good_fail.
Qed.
Lemma rt_status : rt (fun _ => True) status_encode status_decode.
Proof.
  intros b _. destruct (rt_u8 (if b then x01 else x00) I) as (ps & E & D).
  exists ps. split; [exact E|]. intros r. unfold status_decode. rewrite D. destruct b; reflexivity.
Qed.

Lemma good_announce : good (announce_decode w).
Proof.
  apply good_bind; [apply good_status|]. intros [|]; apply good_map, good_string.
Qed.
Lemma eats_announce : eats (announce_decode w).
Proof.
  apply eats_bind; [apply eats_status|]. intros [|]; apply good_map, good_string.
Qed.
Lemma rt_announce : rt (wf w KAnnounce) announce_encode (announce_decode w).
Proof.
  intros a Ha. destruct a as [s|s]; cbn in Ha;
  destruct (rt_string w s Ha) as (p2 & E2 & D2).
  - destruct (rt_status true I) as (p1 & E1 & D1). exists (p1 ++ p2). cbn [announce_encode]. rewrite E1, E2.
    split; [reflexivity|]. intros r. unfold announce_decode. rewrite wire_app, <- app_assoc, D1. cbn [dbind].
    rewrite D2. reflexivity.
  - destruct (rt_status false I) as (p1 & E1 & D1). exists (p1 ++ p2). cbn [announce_encode]. rewrite E1, E2.
    split; [reflexivity|]. intros r. unfold announce_decode. rewrite wire_app, <- app_assoc, D1. cbn [dbind].
    rewrite D2. reflexivity.
Qed.

(** ** Extensions *)
Definition entry_decode : decoder (N * bytes) :=
  fun r => dbind (u64_decode r) (fun k r => dbind (vec_decode w u8_decode r) (fun d r => DOk (k, d) r)).
Lemma good_entry : good entry_decode.
Proof.
  apply good_bind; [apply good_u64|]. intros k. apply good_bind; [apply good_bytes|]. intros d. apply good_ret.
Qed.

(** Body of the loop for a map already holding [m]. *)
Definition ext_step (m : extensions) : decoder (N * bytes) :=
  fun r => dbind (u64_decode r) (fun k r =>
    if ext_mem k m then DErr DupliateParameter
    else dbind (vec_decode w u8_decode r) (fun d r => DOk (k, d) r)).

Lemma good_ext_step m : good (ext_step m).
Proof.
  apply good_bind; [apply good_u64|]. intros k. destruct (ext_mem k m); [apply good_fail|].
  apply good_bind; [apply good_bytes|]. intros d. apply good_ret.
Qed.
Lemma eats_ext_step m : eats (ext_step m).
Proof.
  apply eats_bind; [apply eats_u64|]. intros k. destruct (ext_mem k m); [apply good_fail|].
  apply good_bind; [apply good_bytes|]. intros d. apply good_ret.
Qed.

Lemma extensions_loop_S f n m r : n <> 0 ->
  extensions_loop w (S f) n m r = dbind (ext_step m r) (fun e r => extensions_loop w f (N.pred n) (m ++ [e]) r).
Proof.
  intros Hn. cbn [extensions_loop]. destruct n; [congruence|]. unfold ext_step.
  destruct (u64_decode r) as [k r1| |]; cbn [dbind]; auto. destruct (ext_mem k m); cbn [dbind]; auto.
  destruct (vec_decode w u8_decode r1) as [d r2| |]; cbn [dbind]; auto.
Qed.

Lemma extensions_loop_fuel f1 f2 n m r : (length r < f1)%nat -> (length r < f2)%nat ->
  extensions_loop w f1 n m r = extensions_loop w f2 n m r.
Proof.
  revert f2 n m r; induction f1 as [|f1 IH]; intros f2 n m r H1 H2; [lia|].
  destruct f2 as [|f2]; [lia|]. destruct (N.eq_dec n 0) as [->|Hn]; [reflexivity|].
  rewrite !extensions_loop_S by assumption.
  destruct (ext_step m r) as [a r1| |] eqn:Ed; cbn [dbind]; auto.
  apply eats_ext_step in Ed. rewrite (IH f2) by lia. reflexivity.
Qed.

Definition ext_times (n : N) (m : extensions) : decoder extensions :=
  fun r => extensions_loop w (S (length r)) n m r.

Lemma ext_times_succ n m r :
  ext_times (N.succ n) m r = dbind (ext_step m r) (fun e r => ext_times n (m ++ [e]) r).
Proof.
  unfold ext_times. rewrite extensions_loop_S by lia. rewrite N.pred_succ.
  destruct (ext_step m r) as [a r1| |] eqn:Ed; cbn [dbind]; auto.
  apply eats_ext_step in Ed. apply extensions_loop_fuel; lia.
Qed.

Lemma good_ext_times n m : good (ext_times n m).
Proof.
  revert m. induction n as [|n IH] using N.peano_ind; intros m.
  - apply good_ret.
  - eapply good_ext; [intros; symmetry; apply ext_times_succ|].
    apply good_bind; [apply good_ext_step|]. intros e. apply IH.
Qed.

Lemma good_extensions : good (extensions_decode w).
Proof. apply (good_bind u64_decode (fun n => ext_times n [])); [apply good_u64|]. intros n. apply good_ext_times. Qed.
Lemma eats_extensions : eats (extensions_decode w).
Proof. apply (eats_bind u64_decode (fun n => ext_times n [])); [apply eats_u64|]. intros n. apply good_ext_times. Qed.

Lemma ext_mem_true k m : ext_mem k m = true <-> In k (map fst m).
Proof.
  unfold ext_mem. rewrite existsb_exists, in_map_iff. split.
  - intros (e & Hin & He). exists e. split; [lia|exact Hin].
  - intros (e & He & Hin). exists e. split; [exact Hin|lia].
Qed.
Lemma ext_mem_false k m : ext_mem k m = false <-> ~ In k (map fst m).
Proof. rewrite <- ext_mem_true. destruct (ext_mem k m); split; congruence. Qed.

Definition ok_entry (e : N * bytes) : Prop := ok_int (fst e) /\ ok_bytes w (snd e).

Lemma entry_wire e : ok_entry e -> exists p1 p2, u64_encode (fst e) = Val p1 /\
  vec_encode u8_encode (snd e) = Val p2 /\ extension_entry_encode e = Val (p1 ++ p2) /\
  (forall r, u64_decode (wire p1 ++ r) = DOk (fst e) r) /\
  (forall r, vec_decode w u8_decode (wire p2 ++ r) = DOk (snd e) r).
Proof.
  intros [H1 H2]. destruct (rt_u64 _ H1) as (p1 & E1 & D1). destruct (rt_bytes w _ H2) as (p2 & E2 & D2).
  exists p1, p2. unfold extension_entry_encode. rewrite E1, E2. auto.
Qed.

(** Decoding a written entry list, with or without duplicates. *)
Lemma ext_times_wire l : Forall ok_entry l -> forall m, NoDup (map fst m) ->
  exists ps, seq_encode extension_entry_encode l = Val ps /\ forall r,
    (NoDup (map fst (m ++ l)) -> ext_times (len l) m (wire ps ++ r) = DOk (m ++ l) r) /\
    (~ NoDup (map fst (m ++ l)) -> ext_times (len l) m (wire ps ++ r) = DErr DupliateParameter).
Proof.
  induction 1 as [|e l He Hl IH]; intros m Hm.
  - exists []. split; [reflexivity|]. intros r. rewrite app_nil_r. split; intros H; [reflexivity|tauto].
  - destruct (entry_wire e He) as (p1 & p2 & E1 & E2 & E & D1 & D2).
    destruct (in_dec N.eq_dec (fst e) (map fst m)) as [Hin|Hin].
    + (* duplicate *)
      destruct (IH m Hm) as (ps & Eps & _). exists ((p1 ++ p2) ++ ps). split.
      { cbn [seq_encode fold_right]. fold (seq_encode extension_entry_encode l). rewrite E, Eps. reflexivity. }
      intros r. rewrite len_cons, N.add_1_l, ext_times_succ, !wire_app, <- !app_assoc. unfold ext_step.
      rewrite D1. cbn [dbind]. rewrite (proj2 (ext_mem_true _ _) Hin). cbn [dbind]. split; [|reflexivity].
      intros Hnd. exfalso. rewrite map_app in Hnd. cbn [map] in Hnd. apply NoDup_remove_2 in Hnd.
      apply Hnd. apply in_or_app. left; exact Hin.
    + assert (Hm' : NoDup (map fst (m ++ [e]))).
      { rewrite map_app. cbn [map]. eapply Permutation_NoDup; [apply Permutation_cons_append|].
        constructor; assumption. }
      destruct (IH (m ++ [e]) Hm') as (ps & Eps & Hps). exists ((p1 ++ p2) ++ ps). split.
      { cbn [seq_encode fold_right]. fold (seq_encode extension_entry_encode l). rewrite E, Eps. reflexivity. }
      intros r. specialize (Hps r). rewrite <- !app_assoc in Hps. cbn [app] in Hps.
      rewrite len_cons, N.add_1_l, ext_times_succ, !wire_app, <- !app_assoc. unfold ext_step.
      rewrite D1. cbn [dbind]. rewrite (proj2 (ext_mem_false _ _) Hin). rewrite D2. cbn [dbind].
      destruct e; exact Hps.
Qed.

Lemma extensions_wire l : Forall ok_entry l -> len l < 2 ^ 62 ->
  exists ps, extensions_encode l = Val ps /\ forall r,
    (NoDup (map fst l) -> extensions_decode w (wire ps ++ r) = DOk l r) /\
    (~ NoDup (map fst l) -> extensions_decode w (wire ps ++ r) = DErr DupliateParameter).
Proof.
  intros Hl Hn. destruct (rt_u64 _ Hn) as (p1 & E1 & D1).
  destruct (ext_times_wire l Hl []) as (p2 & E2 & D2); [constructor|].
  exists (p1 ++ p2). unfold extensions_encode. rewrite E1, E2. split; [reflexivity|]. intros r.
  unfold extensions_decode. rewrite wire_app, <- app_assoc, D1. cbn [dbind]. apply D2.
Qed.

Lemma rt_extensions : rt (ok_extensions w) extensions_encode (extensions_decode w).
Proof.
  intros l (Hnd & Hn & Hl). destruct (extensions_wire l Hl Hn) as (ps & E & D).
  exists ps. split; [exact E|]. intros r. apply D. exact Hnd.
Qed.

(** ** Remaining kinds *)
Lemma good_group_header : good group_header_decode.
Proof. apply good_bind; [apply good_u64|]. intros s. apply good_bind; [apply good_u64|]. intros q. apply good_ret. Qed.
Lemma eats_group_header : eats group_header_decode.
Proof. apply eats_bind; [apply eats_u64|]. intros s. apply good_bind; [apply good_u64|]. intros q. apply good_ret. Qed.
Lemma rt_group_header : rt (wf w KGroup) group_header_encode group_header_decode.
Proof.
  apply (rt_seq u62 u62 u64_encode u64_decode u64_encode u64_decode GroupHeader gh_subscribe gh_sequence).
  1,2: apply rt_u64. 1: intros c H; exact H. intros []; reflexivity.
Qed.

Lemma good_session_info : good session_info_decode.
Proof. apply good_map, good_u64. Qed.
Lemma rt_session_info : rt (wf w KSessionInfo) session_info_encode session_info_decode.
Proof.
  intros b Hb. destruct (rt_u64 (match b with Some n => n | None => 0 end)) as (ps & E & D).
  { destruct b; [apply Hb|]. unfold u62. cst; lia. }
  exists ps. split; [exact E|]. intros r. unfold session_info_decode. rewrite D. cbn.
  destruct b as [n|]; [|reflexivity]. destruct Hb as [_ Hn]. destruct n; [congruence|reflexivity].
Qed.

Lemma good_versions : good versions_decode.
Proof.
  apply good_bind; [apply good_u64|]. intros n. apply good_times; [apply good_u64|apply eats_u64].
Qed.
Lemma eats_versions : eats versions_decode.
Proof.
  apply eats_bind; [apply eats_u64|]. intros n. apply good_times; [apply good_u64|apply eats_u64].
Qed.
Lemma rt_versions : rt ok_versions versions_encode versions_decode.
Proof.
  intros l [Hn Hl]. destruct (rt_u64 _ Hn) as (p1 & E1 & D1).
  destruct (rt_times version_decode eats_u64 u62 version_encode rt_u64 l Hl) as (p2 & E2 & D2).
  exists (p1 ++ p2). unfold versions_encode, len. rewrite E1, E2. split; [reflexivity|]. intros r.
  unfold versions_decode. rewrite wire_app, <- app_assoc, D1. cbn [dbind]. apply D2.
Qed.

Lemma good_client_setup : good (client_setup_decode w).
Proof. apply good_bind; [apply good_versions|]. intros v. apply good_bind; [apply good_extensions|]. intros e. apply good_ret. Qed.
Lemma rt_client_setup : rt (wf w KClientSetup) client_setup_encode (client_setup_decode w).
Proof.
  apply (rt_seq ok_versions (ok_extensions w) versions_encode versions_decode extensions_encode (extensions_decode w)
    ClientSetup cs_versions cs_extensions).
  - apply rt_versions.
  - apply rt_extensions.
  - intros c H; exact H.
  - intros []; reflexivity.
Qed.

Lemma good_server_setup : good (server_setup_decode w).
Proof. apply good_bind; [apply good_u64|]. intros v. apply good_bind; [apply good_extensions|]. intros e. apply good_ret. Qed.
Lemma rt_server_setup : rt (wf w KServerSetup) server_setup_encode (server_setup_decode w).
Proof.
  apply (rt_seq ok_int (ok_extensions w) version_encode version_decode extensions_encode (extensions_decode w)
    ServerSetup ss_version ss_extensions).
  - apply rt_u64.
  - apply rt_extensions.
  - intros c H; exact H.
  - intros []; reflexivity.
Qed.

Lemma good_control : good control_type_decode.
Proof.
  apply good_bind; [apply good_u64|]. intros t.
  destruct t as [|[p|[p|p|]|]]; auto using good_ret, good_fail.
Qed.
Lemma eats_control : eats control_type_decode.
Proof.
  apply eats_bind; [apply eats_u64|]. intros t.
  destruct t as [|[p|[p|p|]|]]; auto using good_ret, good_fail.
Qed.
Lemma rt_control : rt (fun _ => True) control_type_encode control_type_decode.
Proof.
  intros t _. destruct (rt_u64 (match t with CSession => 0 | CAnnounce => 1 | CSubscribe => 2 end)) as (ps & E & D).
  { unfold u62. destruct t; cst; lia. }
  exists ps. split; [exact E|]. intros r. unfold control_type_decode. rewrite D. destruct t; reflexivity.
Qed.

Lemma good_data : good data_type_decode.
Proof.
  apply good_bind; [apply good_u64|]. intros t. destruct t; auto using good_ret, good_fail.
Qed.
Lemma eats_data : eats data_type_decode.
Proof.
  apply eats_bind; [apply eats_u64|]. intros t. destruct t; auto using good_ret, good_fail.
Qed.
Lemma rt_data : rt (fun _ => True) data_type_encode data_type_decode.
Proof.
  intros [] _. destruct (rt_u64 0) as (ps & E & D). { unfold u62. cst; lia. }
  exists ps. split; [exact E|]. intros r. unfold data_type_decode. rewrite D. reflexivity.
Qed.

Lemma good_subscribe : good (subscribe_decode w).
Proof.
  apply good_bind; [apply good_u64|]. intros i.
  apply good_bind; [apply good_string|]. intros b.
  apply good_bind; [apply good_string|]. intros t.
  apply good_bind; [apply good_u8|]. intros p. apply good_ret.
Qed.
Lemma rt_subscribe : rt (wf w KSubscribe) subscribe_encode (subscribe_decode w).
Proof.
  intros [i b t p] (Hi & Hb & Ht). cbn in *.
  destruct (rt_u64 i Hi) as (p1 & E1 & D1).
  destruct (rt_string w b Hb) as (p2 & E2 & D2).
  destruct (rt_string w t Ht) as (p3 & E3 & D3).
  destruct (rt_u8 p I) as (p4 & E4 & D4).
  exists (p1 ++ p2 ++ p3 ++ p4). unfold subscribe_encode. cbn [sub_id sub_broadcast sub_track sub_priority].
  rewrite E1, E2, E3, E4. split; [reflexivity|]. intros r. rewrite !wire_app, <- !app_assoc.
  unfold subscribe_decode. rewrite D1. cbn [dbind]. rewrite D2. cbn [dbind]. rewrite D3. cbn [dbind]. rewrite D4. reflexivity.
Qed.

(** ** All kinds *)
Lemma good_kind k : good (decode_kind w k).
Proof.
  destruct k; cbn [decode_kind];
  auto using good_u8, good_i8, good_u32, good_u64, good_string, good_bytes, good_blob, good_duration, good_announce,
    good_extensions, good_group_header, good_session_info, good_versions, good_client_setup, good_server_setup,
    good_control, good_data, good_subscribe.
Qed.

Lemma rt_kind k : rt (wf w k) (encode_kind k) (decode_kind w k).
Proof.
  destruct k; cbn [decode_kind encode_kind wf]; try first
    [apply rt_u8 | apply rt_u32 | apply rt_u64 | apply rt_string | apply rt_bytes | apply rt_blob | apply rt_announce
    |apply rt_extensions|apply rt_group_header|apply rt_session_info|apply rt_versions|apply rt_client_setup
    |apply rt_server_setup|apply rt_control|apply rt_data|apply rt_subscribe].
  - intros v Hv. apply rt_i8. lia.
  - intros d [H1 H2]. destruct (rt_duration_trunc d H2) as (ps & E & D). exists ps. split; [exact E|].
    intros r. rewrite D, H1, N.sub_0_r. reflexivity.
Qed.

Lemma eats_kind k : eats (decode_kind w k).
Proof.
  destruct k; cbn [decode_kind]; try first [apply eats_u8|apply eats_u64|apply eats_string|apply eats_bytes
    |apply eats_announce|apply eats_extensions|apply eats_group_header|apply eats_versions|apply eats_control|apply eats_data].
  - intros [|b l] a r; [discriminate|]. intros [= <- ->]. cbn; lia.
  - apply eats_bind; [apply eats_varint|]. intros v. destruct (varint_narrow 32 v); auto using good_ret, good_fail.
  - apply eats_bind; [apply eats_usize|]. intros n.
    constructor.
    + intros bs a r. destruct (len bs <? n) eqn:E; [discriminate|]. intros [= <- <-].
      exists (firstn (N.to_nat n) bs). symmetry; apply firstn_skipn.
    + intros bs a r x. destruct (len bs <? n) eqn:E; [discriminate|]. intros [= <- <-].
      rewrite len_app. destruct (len bs + len x <? n) eqn:E2; [lia|].
      unfold len in E. rewrite firstn_app, skipn_app.
      replace (N.to_nat n - length bs)%nat with 0%nat by lia. cbn. rewrite app_nil_r. reflexivity.
    + intros bs e x. destruct (len bs <? n); [intros [= <-]; congruence|discriminate].
    + intros bs. destruct (len bs <? n); discriminate.
  - apply eats_map, eats_u64.
  - apply eats_map, eats_u64.
  - apply eats_bind; [apply eats_versions|]. intros v. apply good_bind; [apply good_extensions|]. intros e. apply good_ret.
  - apply eats_bind; [apply eats_u64|]. intros v. apply good_bind; [apply good_extensions|]. intros e. apply good_ret.
  - apply eats_bind; [apply eats_u64|]. intros i.
    apply good_bind; [apply good_string|]. intros b.
    apply good_bind; [apply good_string|]. intros t.
    apply good_bind; [apply good_u8|]. intros p. apply good_ret.
Qed.

(** ** Unique decodability *)
Lemma encodes_seq_inj k (l1 l2 : list (payload k)) bs :
  Forall (wf w k) l1 -> Forall (wf w k) l2 ->
  encodes_seq (encode_kind k) l1 bs -> encodes_seq (encode_kind k) l2 bs -> l1 = l2.
Proof.
  intros H1; revert l2 bs; induction H1 as [|a l1 Ha Hl1 IH]; intros l2 bs H2 E1 E2.
  - destruct l2 as [|b l2]; [reflexivity|]. cbn in E1. subst bs. exfalso.
    destruct E2 as (ps & rest & E & _ & Hnil). inversion H2; subst.
    destruct (rt_kind k b) as (ps' & E' & D); [assumption|]. rewrite E in E'. injection E' as <-.
    destruct (wire ps) eqn:Ew; [|discriminate]. specialize (D []). cbn in D.
    apply eats_kind in D. cbn in D. lia.
  - cbn in E1. destruct E1 as (pa & ra & Ea & Hra & ->).
    destruct (rt_kind k a Ha) as (pa' & Ea' & Da). rewrite Ea in Ea'. injection Ea' as <-.
    destruct l2 as [|b l2].
    + exfalso. cbn in E2. destruct (wire pa) eqn:Ew; [|discriminate].
      specialize (Da []). apply eats_kind in Da. cbn in Da. lia.
    + inversion H2; subst. cbn in E2. destruct E2 as (pb & rb & Eb & Hrb & Heq).
      destruct (rt_kind k b) as (pb' & Eb' & Db); [assumption|]. rewrite Eb in Eb'. injection Eb' as <-.
      pose proof (Da ra) as X. rewrite Heq, Db in X. injection X as -> ->.
      f_equal. eapply IH; eauto.
Qed.

Lemma no_prefix k a b pa pb : wf w k a -> wf w k b ->
  encode_kind k a = Val pa -> encode_kind k b = Val pb -> ~ strict_prefix (wire pa) (wire pb).
Proof.
  intros Ha Hb Ea Eb Hp. pose proof (rt_good_short _ _ _ (good_kind k) (rt_kind k) _ _ _ Hb Eb Hp) as X.
  destruct (rt_kind k a Ha) as (pa' & Ea' & Da). rewrite Ea in Ea'. injection Ea' as <-.
  specialize (Da []). rewrite app_nil_r in Da. congruence.
Qed.

End W.

(** ** Extension maps *)
Lemma extensions_order w l1 l2 : ok_extensions w l1 -> Permutation l1 l2 ->
  exists p2, extensions_encode l2 = Val p2 /\
    forall r, exists m, extensions_decode w (wire p2 ++ r) = DOk m r /\
      forall k v, maps_to m k v <-> maps_to l1 k v.
Proof.
  intros (Hnd & Hn & Hl) HP.
  assert (Hok : ok_extensions w l2).
  { repeat split.
    - eapply Permutation_NoDup; [apply Permutation_map; exact HP|exact Hnd].
    - rewrite <- (Permutation_length HP). exact Hn.
    - eapply Permutation_Forall; eauto. }
  destruct (rt_extensions w l2 Hok) as (ps & E & D). exists ps. split; [exact E|]. intros r.
  exists l2. split; [apply D|]. intros k v. unfold maps_to. split; apply Permutation_in; auto using Permutation_sym.
Qed.

Lemma extensions_dup w l : Forall (ok_entry w) l -> len l < 2 ^ 62 -> ~ NoDup (map fst l) ->
  exists ps, extensions_encode l = Val ps /\
    forall r, extensions_decode w (wire ps ++ r) = DErr DupliateParameter.
Proof.
  intros H1 H2 H3. destruct (extensions_wire w l H1 H2) as (ps & E & D). exists ps. split; [exact E|].
  intros r. apply D, H3.
Qed.

Lemma extensions_get_set {E} id (enc : encoder E) (dec : decoder E) v m m' ps :
  enc v = Val ps -> dec (wire ps) = DOk v [] ->
  extensions_set id enc v m = Val m' ->
  extensions_get id dec m' = Some (DOk v []) /\
  (forall k x, k <> id -> (maps_to m' k x <-> maps_to m k x)).
Proof.
  intros He Hd Hs. unfold extensions_set in Hs. rewrite He in Hs. injection Hs as <-. split.
  - unfold extensions_get. cbn [find fst]. rewrite N.eqb_refl, Hd. reflexivity.
  - intros k x Hk. unfold maps_to. cbn [In]. rewrite filter_In. cbn [fst]. split.
    + intros [[= -> _]|[H _]]; [congruence|exact H].
    + intros H. right. split; [exact H|]. destruct (k =? id) eqn:Ek; [lia|reflexivity].
Qed.

Lemma extensions_set_nodup {E} id (enc : encoder E) v m m' :
  NoDup (map fst m) -> extensions_set id enc v m = Val m' -> NoDup (map fst m').
Proof.
  intros Hnd Hs. unfold extensions_set in Hs. destruct (enc v) as [ps|]; [|discriminate]. injection Hs as <-.
  cbn [map fst]. constructor.
  - rewrite in_map_iff. intros (e & He & Hin). apply filter_In in Hin. destruct Hin as [_ Hf]. lia.
  - clear -Hnd. induction m as [|e m IH]; [constructor|]. cbn [map] in Hnd. inversion Hnd; subst.
    cbn [filter]. destruct (negb (fst e =? id)); [|apply IH; assumption]. cbn [map]. constructor; [|apply IH; assumption].
    rewrite in_map_iff in *. intros (e' & He & Hin). apply filter_In in Hin. apply H1. exists e'. tauto.
Qed.
