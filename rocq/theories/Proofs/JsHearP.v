(** The JavaScript and the Rust library reading each other's messages. *)
From Coq Require Import NArith ZArith List Lia Bool.
From Coq Require Import Init.Byte Strings.Byte.
From Coq Require Import ZifyBool ZifyNat ZifyN.
From Verif.Model Require Import Base Coding Message Stream JsWire.
From Verif.Spec Require Import CodingSpec MessageSpec StreamSpec JsWireSpec.
From Verif.Proofs Require Import BaseP CodingP MessageP StreamP JsWireP.
Import ListNotations.
Open Scope N_scope.

(** ** Rust to JavaScript *)
Lemma gets_of {A} (jd : js A) f r a rest : den jd f -> f (content r) = FOk a rest -> gets jd r a rest.
Proof.
  intros D E. destruct (D r) as (r' & E1 & N1 & _ & C1). rewrite E in *. exists r'. cbn [jout_of] in E1. auto.
Qed.
(** The flat reader is a function, so [gets] says what it computes. *)
Lemma gets_iff {A} (jd : js A) f r a rest : den jd f -> (gets jd r a rest <-> f (content r) = FOk a rest).
Proof.
  intros D. split; [|apply gets_of, D]. intros (r' & E & C & N). destruct (D r) as (r2 & E2 & _ & _ & C2).
  rewrite E in E2. injection E2 as E2 <-. destruct (f (content r)) as [a' rest'| | |]; cbn [jout_of] in E2.
  - injection E2 as ->. congruence.
  - discriminate.
  - unfold stuck in E2. destruct (ends r); discriminate.
  - discriminate.
Qed.

Lemma u64_62 v ps : u64_encode v = Val ps -> v < 2 ^ 62.
Proof. intros E. destruct (N.le_gt_cases (2 ^ 62) v) as [H|H]; [|exact H]. apply u64_encode_panic in H. congruence. Qed.
Lemma f62 v ps rest : u64_encode v = Val ps -> f_u62 (wire ps ++ rest) = FOk v rest.
Proof.
  intros E. destruct (rt_u64 v (u64_62 _ _ E)) as (ps' & E' & D). assert (ps' = ps) as -> by congruence.
  unfold f_u62. rewrite D. reflexivity.
Qed.
Lemma f53 v ps rest : u64_encode v = Val ps -> safe v -> f_u53 (wire ps ++ rest) = FOk v rest.
Proof.
  intros E H. unfold f_u53, fbind. rewrite (f62 _ _ _ E). unfold max_u53, safe in *. change (2 ^ 53) with 9007199254740992 in H.
  destruct (9007199254740991 <? v) eqn:L; [lia|reflexivity].
Qed.
Lemma f53_throw v ps rest : u64_encode v = Val ps -> ~ safe v -> f_u53 (wire ps ++ rest) = FThrow.
Proof.
  intros E H. unfold f_u53, fbind. rewrite (f62 _ _ _ E). unfold max_u53, safe in *. change (2 ^ 53) with 9007199254740992 in H.
  destruct (9007199254740991 <? v) eqn:L; [reflexivity|lia].
Qed.


Lemma string_wire s ps : string_encode s = Val ps ->
  exists p1, u64_encode (len s) = Val p1 /\ wire ps = wire p1 ++ s.
Proof.
  unfold string_encode. intros E. apply eseq_val in E. destruct E as (x & y & E1 & [= <-] & ->).
  exists x. split; [exact E1|]. rewrite wire_app. cbn. rewrite !app_nil_r. reflexivity.
Qed.

Lemma status_wire b p : status_encode b = Val p -> forall rest, f_u53 (wire p ++ rest) = FOk (if b then 1 else 0) rest.
Proof. intros [= <-] rest. destruct b; reflexivity. Qed.

Lemma byte_wire b p rest : u8_encode b = Val p -> wire p ++ rest = b :: rest.
Proof. intros [= <-]. cbn. rewrite u8_n_of. reflexivity. Qed.
Lemma f53_small b rest : n_of b < 64 -> f_u53 (b :: rest) = FOk (n_of b) rest.
Proof.
  intros H. unfold f_u53, fbind. rewrite u62_flat. replace (n_of b / 64) with 0 by (symmetry; apply N.div_small, H).
  unfold finish_u62. change (2 ^ 0) with 1. rewrite len_cons'. destruct (1 + len rest <? 1) eqn:L; [lia|].
  assert (T : take 1 (b :: rest) = [b]).
  { unfold take. rewrite len_cons'. replace (N.min 1 (1 + len rest)) with 1 by lia. reflexivity. }
  assert (D : drop 1 (b :: rest) = rest).
  { unfold drop. rewrite len_cons'. replace (N.min 1 (1 + len rest)) with 1 by lia. reflexivity. }
  rewrite T, D. change (be_value [b] - 0 * 2 ^ (8 * 1 - 2)) with (be_value [b] - 0). rewrite N.sub_0_r.
  change (be_value [b]) with (n_of b). unfold max_u53. destruct (9007199254740991 <? n_of b) eqn:M; [|reflexivity].
  pose proof (n_of_lt b). lia.
Qed.
Lemma f53_alone b : 64 <= n_of b -> f_u53 [b] = FShort.
Proof.
  intros H. unfold f_u53, fbind. rewrite u62_flat. unfold finish_u62. set (k := n_of b / 64).
  assert (1 <= k) by (unfold k; apply N.div_le_lower_bound; lia).
  assert (2 ^ 1 <= 2 ^ k) by (apply N.pow_le_mono_r; lia). change (2 ^ 1) with 2 in *.
  change (len [b]) with 1. destruct (1 <? 2 ^ k) eqn:L; [reflexivity|lia].
Qed.
(** Whatever follows, a byte from 64 on is not read as itself. *)
Lemma f53_other b rest : 64 <= n_of b -> f_u53 (b :: rest) <> FOk (n_of b) rest.
Proof.
  intros H E. unfold f_u53, fbind in E. rewrite u62_flat in E. unfold finish_u62 in E. set (k := n_of b / 64) in *.
  assert (1 <= k) by (unfold k; apply N.div_le_lower_bound; lia).
  assert (2 ^ 1 <= 2 ^ k) by (apply N.pow_le_mono_r; lia). change (2 ^ 1) with 2 in *.
  destruct (len (b :: rest) <? 2 ^ k) eqn:L; [discriminate|]. destruct (max_u53 <? _); [discriminate|].
  pose proof (f_equal (fun x => match x with FOk _ r => r | _ => [] end) E) as D. cbv beta iota delta [fret] in D.
  apply (f_equal len) in D. rewrite len_drop, len_cons' in D. rewrite len_cons' in L. lia.
Qed.

Lemma hears_ok : hears j_subscribe_ok KSubscribeOk (fun b => Byte.to_N b < 64) Byte.to_N.
Proof.
  intros m ps r rest E S C. eapply gets_of; [apply den_u53|]. rewrite C. cbn [encode_kind] in E.
  unfold subscribe_ok_encode in E. rewrite (byte_wire _ _ _ E). apply f53_small, S.
Qed.
Lemma ok_exact m ps r rest : encode_kind KSubscribeOk m = Val ps -> content r = wire ps ++ rest ->
  (gets j_subscribe_ok r (Byte.to_N m) rest <-> Byte.to_N m < 64).
Proof.
  intros E C. split; [|intros H; eapply hears_ok; eauto].
  intros G. apply (gets_iff _ _ _ _ _ den_u53) in G. rewrite C in G. cbn [encode_kind] in E. unfold subscribe_ok_encode in E.
  rewrite (byte_wire _ _ _ E) in G. destruct (N.lt_ge_cases (n_of m) 64) as [H|H]; [exact H|].
  exfalso. exact (f53_other _ _ H G).
Qed.
(** And the reader waits for what does not come. *)
Lemma fst_den {A} (jd : js A) f r : den jd f -> fst (jd r) = jout_of (ends r) (f (content r)).
Proof. intros D. destruct (D r) as (r' & E & _). rewrite E. reflexivity. Qed.
Lemma ok_stuck m ps r : encode_kind KSubscribeOk m = Val ps -> 64 <= Byte.to_N m ->
  content r = wire ps -> fst (j_subscribe_ok r) = match ends r with Open => JWait | _ => JThrow end.
Proof.
  intros E H C. rewrite (fst_den _ _ _ den_u53), C. cbn [encode_kind] in E. unfold subscribe_ok_encode in E.
  rewrite <- (app_nil_r (wire ps)), (byte_wire _ _ _ E), f53_alone by exact H. unfold stuck. cbn. destruct (ends r); reflexivity.
Qed.

Lemma group_wire m ps rest : group_header_encode m = Val ps -> safe (gh_sequence m) -> f_group (wire ps ++ rest) = FOk m rest.
Proof.
  intros E S. unfold group_header_encode in E.
  apply eseq_val in E. destruct E as (x & y & E1 & E2 & ->). rewrite wire_app, <- app_assoc.
  unfold f_group, fbind. rewrite (f62 _ _ _ E1), (f53 _ _ _ E2) by exact S. destruct m; reflexivity.
Qed.
Lemma hears_group : hears j_group KGroup (fun g => safe (gh_sequence g)) (fun g => g).
Proof. intros m ps r rest E S C. eapply gets_of; [apply den_group|]. rewrite C. apply group_wire; assumption. Qed.
Lemma hears_info : hears j_info KSessionInfo (fun b => safe (info_view b)) info_view.
Proof. intros m ps r rest E S C. eapply gets_of; [apply den_u53|]. rewrite C. apply f53; assumption. Qed.

Lemma bytes_wire l ps : vec_encode u8_encode l = Val ps -> exists p1, u64_encode (len l) = Val p1 /\ wire ps = wire p1 ++ l.
Proof.
  unfold vec_encode. intros E. apply eseq_val in E. destruct E as (x & y & E1 & E2 & ->). exists x. split; [exact E1|].
  destruct (seq_encode_u8 l) as (y' & E2' & W). rewrite wire_app. congruence.
Qed.
Lemma ext_loop_wire : forall l ps, seq_encode extension_entry_encode l = Val ps ->
  Forall (fun e => safe (N.of_nat (length (snd e)))) l -> forall m fuel rest, NoDup (map fst (m ++ l)) ->
  (length (wire ps ++ rest) < fuel)%nat -> f_ext_loop fuel (len l) m (wire ps ++ rest) = FOk (m ++ l) rest.
Proof.
  induction l as [|[id v] l IH]; intros ps E F m fuel rest ND L.
  - injection E as <-. rewrite app_nil_r. destruct fuel; reflexivity.
  - cbn [seq_encode fold_right] in E. fold (seq_encode extension_entry_encode l) in E. apply eseq_val in E.
    destruct E as (x & y & E1 & E2 & ->). unfold extension_entry_encode in E1. cbn [fst snd] in E1.
    apply eseq_val in E1. destruct E1 as (pi & pv & Ei & Ev & ->). destruct (bytes_wire _ _ Ev) as (pn & En & Wv).
    inversion F as [|? ? F1 F2]; subst. cbn [snd] in F1.
    rewrite !wire_app, Wv, <- !app_assoc in *. destruct fuel as [|fuel]; [lia|].
    rewrite len_cons, N.add_1_l. destruct (N.succ (len l)) eqn:En1; [lia|]. rewrite <- En1. cbn [f_ext_loop].
    destruct (N.succ (len l)) eqn:En2; [lia|]. rewrite <- En2, N.pred_succ.
    unfold fbind at 1. rewrite (f62 _ _ _ Ei). unfold fbind at 1. rewrite (f53 _ _ _ En) by exact F1.
    unfold fbind at 1. rewrite f_read_app by reflexivity.
    assert (M : ext_mem id m = false).
    { apply ext_mem_false. rewrite map_app in ND. cbn [map fst] in ND. apply NoDup_remove_2 in ND.
      intros Hin. apply ND. apply in_or_app. auto. }
    rewrite M. rewrite (IH y E2 F2 (m ++ [(id, v)]) fuel rest).
    + rewrite <- app_assoc. reflexivity.
    + rewrite <- app_assoc. exact ND.
    + pose proof (feeds_u62 _ _ _ (f62 _ _ (wire pn ++ v ++ wire y ++ rest) Ei)) as Q.
      rewrite !app_length in *. lia.
Qed.
Lemma extensions_wire_js m ps rest : extensions_encode m = Val ps -> safe_extensions m ->
  f_extensions (wire ps ++ rest) = FOk m rest.
Proof.
  unfold extensions_encode. intros E (L & ND & F). apply eseq_val in E. destruct E as (x & y & E1 & E2 & ->).
  rewrite wire_app, <- app_assoc. unfold f_extensions, fbind. rewrite (f53 _ _ _ E1) by exact L.
  rewrite (ext_loop_wire m y E2 F []); [reflexivity|exact ND|lia].
Qed.
Lemma versions_loop_wire : forall l ps, seq_encode version_encode l = Val ps -> Forall safe l -> forall m fuel rest,
  (length (wire ps ++ rest) < fuel)%nat -> f_versions_loop fuel (len l) m (wire ps ++ rest) = FOk (m ++ l) rest.
Proof.
  induction l as [|v l IH]; intros ps E F m fuel rest L.
  - injection E as <-. rewrite app_nil_r. destruct fuel; reflexivity.
  - cbn [seq_encode fold_right] in E. fold (seq_encode version_encode l) in E. apply eseq_val in E.
    destruct E as (x & y & E1 & E2 & ->). inversion F as [|? ? F1 F2]; subst. unfold version_encode in E1.
    rewrite !wire_app, <- !app_assoc in *. destruct fuel as [|fuel]; [lia|].
    rewrite len_cons, N.add_1_l. destruct (N.succ (len l)) eqn:En1; [lia|]. rewrite <- En1. cbn [f_versions_loop].
    destruct (N.succ (len l)) eqn:En2; [lia|]. rewrite <- En2, N.pred_succ.
    unfold fbind at 1. rewrite (f53 _ _ _ E1) by exact F1. rewrite (IH y E2 F2 (m ++ [v]) fuel rest).
    + rewrite <- app_assoc. reflexivity.
    + pose proof (feeds_u62 _ _ _ (f62 _ _ (wire y ++ rest) E1)) as Q. rewrite !app_length in *. lia.
Qed.
Lemma server_wire m ps rest : server_setup_encode m = Val ps -> safe (ss_version m) -> safe_extensions (ss_extensions m) ->
  f_server (wire ps ++ rest) = FOk m rest.
Proof.
  unfold server_setup_encode, version_encode. intros E S X. apply eseq_val in E. destruct E as (x & y & E1 & E2 & ->).
  rewrite wire_app, <- app_assoc. unfold f_server, fbind. rewrite (f53 _ _ _ E1) by exact S.
  rewrite (extensions_wire_js _ _ _ E2 X). destruct m; reflexivity.
Qed.
Lemma hears_server : hears j_server KServerSetup (fun m => safe (ss_version m) /\ safe_extensions (ss_extensions m)) (fun m => m).
Proof. intros m ps r rest E [S X] C. eapply gets_of; [apply den_server|]. rewrite C. apply server_wire; assumption. Qed.
Lemma hears_client : hears j_client KClientSetup
  (fun m => safe (N.of_nat (length (cs_versions m))) /\ Forall safe (cs_versions m) /\ safe_extensions (cs_extensions m)) (fun m => m).
Proof.
  intros m ps r rest E (S1 & S2 & X) C. eapply gets_of; [apply den_client|]. rewrite C.
  cbn [encode_kind] in E. unfold client_setup_encode, versions_encode in E. apply eseq_val in E.
  destruct E as (x & y & E1 & E2 & ->). apply eseq_val in E1. destruct E1 as (n & vs & En & Ev & ->).
  rewrite !wire_app, <- !app_assoc. unfold f_client, f_versions. unfold fbind at 1. unfold fbind at 1.
  rewrite (f53 _ _ _ En) by exact S1. rewrite (versions_loop_wire _ _ Ev S2 []) by lia. cbn [app].
  unfold fbind. rewrite (extensions_wire_js _ _ _ E2 X). destruct m; reflexivity.
Qed.

Section Text.
Context (lossy : bytes -> bytes).

Lemma text_plain s : is_text s -> plain s -> text_decode lossy s = s.
Proof.
  intros T P. unfold text_decode. apply utf8_valid_text in T.
  destruct s as [|a [|b [|c r]]]; try (rewrite T; reflexivity).
  destruct ((n_of a =? 0xef) && (n_of b =? 0xbb) && (n_of c =? 0xbf)) eqn:E; [|rewrite T; reflexivity].
  apply andb_prop in E. destruct E as [E E3]. apply andb_prop in E. destruct E as [E1 E2].
  exfalso. apply (P r). f_equal; [|f_equal; [|f_equal]]; apply n_of_inj; apply N.eqb_eq; assumption.
Qed.
Lemma text_bom s : is_text s -> ~ plain s -> text_decode lossy s <> s.
Proof.
  intros T P E. apply P. intros r ->. apply utf8_valid_text in T. unfold text_decode in E. cbn [n_of] in E.
  change ((n_of xef =? 0xef) && (n_of xbb =? 0xbb) && (n_of xbf =? 0xbf)) with true in E. cbv iota in E.
  change (utf8_valid (xef :: xbb :: xbf :: r)) with (utf8_valid r) in T. rewrite T in E.
  apply (f_equal (@length byte)) in E. cbn in E. lia.
Qed.
Lemma fstring s ps rest : string_encode s = Val ps -> is_text s -> safe (N.of_nat (length s)) ->
  f_string lossy (wire ps ++ rest) = FOk (text_decode lossy s) rest.
Proof.
  intros E T L. destruct (string_wire _ _ E) as (p1 & E1 & ->). rewrite <- app_assoc. unfold f_string, fbind.
  rewrite (f53 _ _ _ E1) by exact L. rewrite f_read_app by reflexivity. reflexivity.
Qed.
Lemma fstring_plain s ps rest : string_encode s = Val ps -> is_text s -> plain_text s ->
  f_string lossy (wire ps ++ rest) = FOk s rest.
Proof. intros E T [P L]. rewrite (fstring s ps rest E T L), text_plain by assumption. reflexivity. Qed.
Lemma fstring_exact s ps rest x : string_encode s = Val ps -> is_text s ->
  f_string lossy (wire ps ++ rest) = FOk x rest -> x = s -> plain_text s.
Proof.
  intros E T F ->. assert (L : safe (N.of_nat (length s))).
  { destruct (N.lt_ge_cases (N.of_nat (length s)) (2 ^ 53)) as [L|L]; [exact L|]. exfalso.
    destruct (string_wire _ _ E) as (p1 & E1 & Ew). rewrite Ew, <- app_assoc in F. unfold f_string, fbind in F.
    rewrite (f53_throw _ _ _ E1) in F; [discriminate|]. unfold safe, len. lia. }
  split; [|exact L]. intros r ->. rewrite (fstring _ ps rest E T L) in F. injection F as F.
  revert F. apply text_bom; [exact T|]. intros P. exact (P r eq_refl).
Qed.

Lemma hears_interest : hears (j_interest lossy) KAnnounceRequest (fun s => is_text s /\ plain_text s) (fun s => s).
Proof.
  intros m ps r rest E [T P] C. eapply gets_of; [apply den_string|]. rewrite C. apply fstring_plain; assumption.
Qed.

Lemma hears_announce : hears (j_announce lossy) KAnnounce safe_announce announce_view.
Proof.
  intros m ps r rest E S C. eapply gets_of; [apply den_announce|]. rewrite C. cbn [encode_kind] in E.
  destruct m as [s|s]; cbn [announce_encode] in E; apply eseq_val in E; destruct E as (x & y & E1 & E2 & ->);
    destruct S as [T P]; rewrite wire_app, <- app_assoc; unfold f_announce, fbind; rewrite (status_wire _ _ E1);
    rewrite (fstring_plain s _ _ E2) by assumption; reflexivity.
Qed.

Lemma subscribe_wire m ps rest : subscribe_encode m = Val ps -> is_text (sub_broadcast m) -> is_text (sub_track m) ->
  safe (N.of_nat (length (sub_broadcast m))) -> safe (N.of_nat (length (sub_track m))) ->
  f_subscribe lossy (wire ps ++ rest) =
    fbind f_u53 (fun p => fret (JSubscribe (sub_id m) (text_decode lossy (sub_broadcast m)) (text_decode lossy (sub_track m)) p))
      (sub_priority m :: rest).
Proof.
  unfold subscribe_encode. intros E T1 T2 L1 L2.
  apply eseq_val in E. destruct E as (p1 & y & E1 & E & ->).
  apply eseq_val in E. destruct E as (p2 & y2 & E2 & E & ->).
  apply eseq_val in E. destruct E as (p3 & p4 & E3 & E4 & ->).
  rewrite !wire_app, <- !app_assoc. rewrite (byte_wire _ _ _ E4).
  unfold f_subscribe. unfold fbind at 1. rewrite (f62 _ _ _ E1).
  unfold fbind at 1. rewrite (fstring _ _ _ E2) by assumption.
  unfold fbind at 1. rewrite (fstring _ _ _ E3) by assumption. reflexivity.
Qed.
Lemma hears_subscribe : hears (j_subscribe lossy) KSubscribe
  (fun m => safe_subscribe m /\ Byte.to_N (sub_priority m) < 64) subscribe_view.
Proof.
  intros m ps r rest E [(T1 & T2 & [P1 L1] & [P2 L2]) S] C. eapply gets_of; [apply den_subscribe|]. rewrite C.
  rewrite (subscribe_wire m ps rest E) by assumption. unfold fbind. rewrite f53_small by exact S.
  rewrite !text_plain by assumption. reflexivity.
Qed.
(** With text that survives, nothing but the priority decides. *)
Lemma subscribe_exact m ps r rest : encode_kind KSubscribe m = Val ps -> safe_subscribe m -> content r = wire ps ++ rest ->
  (gets (j_subscribe lossy) r (subscribe_view m) rest <-> Byte.to_N (sub_priority m) < 64).
Proof.
  intros E S C. split; [|intros H; eapply hears_subscribe; eauto].
  intros G. apply (gets_iff _ _ _ _ _ (den_subscribe lossy)) in G. rewrite C in G.
  destruct S as (T1 & T2 & [P1 L1] & [P2 L2]). rewrite (subscribe_wire m ps rest E) in G by assumption.
  rewrite !text_plain in G by assumption. unfold fbind in G.
  destruct (N.lt_ge_cases (n_of (sub_priority m)) 64) as [H|H]; [exact H|]. exfalso.
  destruct (f_u53 (sub_priority m :: rest)) as [p r'| | |] eqn:F; try discriminate. unfold fret, subscribe_view in G.
  injection G as -> ->. exact (f53_other _ _ H F).
Qed.
Lemma subscribe_stuck m ps r : encode_kind KSubscribe m = Val ps -> safe_subscribe m -> 64 <= Byte.to_N (sub_priority m) ->
  content r = wire ps -> fst (j_subscribe lossy r) = match ends r with Open => JWait | _ => JThrow end.
Proof.
  intros E (T1 & T2 & [P1 L1] & [P2 L2]) H C. rewrite (fst_den _ _ _ (den_subscribe lossy)), C.
  rewrite <- (app_nil_r (wire ps)), (subscribe_wire m ps [] E) by assumption. unfold fbind. rewrite f53_alone by exact H.
  cbn. unfold stuck. destruct (ends r); reflexivity.
Qed.
End Text.

(** ** JavaScript to Rust *)
Definition says {A} (jw : jput) (d : decoder A) (v : A) : Prop :=
  exists bs, jw = Some bs /\ forall rest, d (bs ++ rest) = DOk v rest.
Lemma says_seq {A B} a b (d : decoder A) (k : A -> decoder B) x y :
  says a d x -> says b (k x) y -> says (jseq a b) (fun r => dbind (d r) k) y.
Proof.
  intros (p & -> & Dp) (q & -> & Dq). exists (p ++ q). split; [reflexivity|]. intros rest.
  rewrite <- app_assoc, Dp. cbn [dbind]. apply Dq.
Qed.
Lemma says_map {A B} a (d : decoder A) (f : A -> B) x : says a d x -> says a (fun r => dmap f (d r)) (f x).
Proof. intros (p & -> & D). exists p. split; [reflexivity|]. intros rest. rewrite D. reflexivity. Qed.
Lemma says_nil {A} (v : A) : says (Some []) (fun r => DOk v r) v.
Proof. exists []. split; reflexivity. Qed.
Lemma jseq_nil a : jseq a (Some []) = a.
Proof. destruct a; cbn; rewrite ?app_nil_r; reflexivity. Qed.
Lemma says_seq_map {A B C} a b (d : decoder A) (e : A -> decoder B) (f : A -> B -> C) x y :
  says a d x -> says b (e x) y -> says (jseq a b) (fun r => dbind (d r) (fun x r => dbind (e x r) (fun y r => DOk (f x y) r))) (f x y).
Proof.
  intros Ha Hb. apply says_seq with (x := x); [exact Ha|]. rewrite <- (jseq_nil b).
  apply (says_seq b (Some []) (e x) (fun y r => DOk (f x y) r) y); [exact Hb|apply says_nil].
Qed.

Ltac nums := change (2 ^ 6 - 1) with 63 in *; change (2 ^ 14 - 1) with 16383 in *; change (2 ^ 30 - 1) with 1073741823 in *;
  change (2 ^ 6) with 64 in *; change (2 ^ 14) with 16384 in *; change (2 ^ 30) with 1073741824 in *;
  change (2 ^ 62) with 4611686018427387904 in *; change (2 ^ 53) with 9007199254740992 in *.

(** The four forms *)
Lemma form1 v : v < 64 -> varint_form 0 v (be_bytes 1 v).
Proof.
  intros H. unfold varint_form. rewrite be_bytes_length, <- be_value_spec.
  rewrite be_value_be_bytes by (change (256 ^ N.of_nat 1) with 256; lia).
  change (2 ^ (8 * 2 ^ 0 - 2)) with 64. repeat split; try reflexivity; lia.
Qed.
Lemma form2 v : v < 16384 -> varint_form 1 v (be_bytes 2 (N.lor v 0x4000)).
Proof.
  intros H. unfold varint_form. rewrite be_bytes_length, <- be_value_spec.
  change 0x4000 with (N.shiftl 1 14). rewrite N.lor_comm, lor_tag by exact H. change (2 ^ 14) with 16384.
  rewrite be_value_be_bytes by (change (256 ^ N.of_nat 2) with 65536; lia).
  change (2 ^ (8 * 2 ^ 1 - 2)) with 16384. repeat split; try reflexivity; lia.
Qed.
Lemma form4 v : v < 1073741824 -> varint_form 2 v (be_bytes 4 (N.lor v 0x80000000)).
Proof.
  intros H. unfold varint_form. rewrite be_bytes_length, <- be_value_spec.
  change 0x80000000 with (N.shiftl 2 30). rewrite N.lor_comm, lor_tag by exact H. change (2 ^ 30) with 1073741824.
  rewrite be_value_be_bytes by (change (256 ^ N.of_nat 4) with 4294967296; lia).
  change (2 ^ (8 * 2 ^ 2 - 2)) with 1073741824. repeat split; try reflexivity; lia.
Qed.
Lemma form8 v : v < 4611686018427387904 -> varint_form 3 v (be_bytes 8 (N.lor v 0xc000000000000000)).
Proof.
  intros H. unfold varint_form. rewrite be_bytes_length, <- be_value_spec.
  change 0xc000000000000000 with (N.shiftl 3 62). rewrite N.lor_comm, lor_tag by exact H. change (2 ^ 62) with 4611686018427387904.
  rewrite be_value_be_bytes by (change (256 ^ N.of_nat 8) with 18446744073709551616; lia).
  change (2 ^ (8 * 2 ^ 3 - 2)) with 4611686018427387904. repeat split; try reflexivity; lia.
Qed.
Lemma set53 v : safe v -> exists bs, set_vint53 v = Some bs /\ is_varint v bs.
Proof.
  intros H. unfold set_vint53, safe, max_u53 in *. nums.
  destruct (v <=? 63) eqn:E1; [eexists; split; [reflexivity|]; exists 0; split; [lia|apply form1; lia]|].
  destruct (v <=? 16383) eqn:E2; [eexists; split; [reflexivity|]; exists 1; split; [lia|apply form2; lia]|].
  destruct (v <=? 1073741823) eqn:E3; [eexists; split; [reflexivity|]; exists 2; split; [lia|apply form4; lia]|].
  destruct (v <=? 9007199254740991) eqn:E4; [|lia].
  eexists; split; [reflexivity|]; exists 3; split; [lia|apply form8; lia].
Qed.
Lemma w53 v : safe v -> exists bs, w_u53 v = Some bs /\ is_varint v bs.
Proof.
  intros H. unfold w_u53. destruct (max_u53 <? v) eqn:E; [|apply set53, H]. unfold max_u53, safe in *. nums. lia.
Qed.
Lemma w62 v : v < 2 ^ 62 -> is_varint v (set_vint62 v).
Proof.
  intros H. unfold set_vint62. nums.
  destruct (v <? 63) eqn:E1; [exists 0; split; [lia|apply form1; lia]|].
  destruct (v <? 16383) eqn:E2; [exists 1; split; [lia|apply form2; lia]|].
  destruct (v <=? 1073741823) eqn:E3; [exists 2; split; [lia|apply form4; lia]|].
  exists 3; split; [lia|apply form8; lia].
Qed.
Lemma is_varint_says v bs : is_varint v bs -> forall rest, u64_decode (bs ++ rest) = DOk v rest.
Proof. intros (k & Hk & F) rest. exact (varint_decode_complete k v bs rest Hk F). Qed.
Lemma says53 v : safe v -> says (w_u53 v) u64_decode v.
Proof. intros H. destruct (w53 v H) as (bs & E & V). exists bs. split; [exact E|]. apply is_varint_says, V. Qed.
Lemma says62 v : v < 2 ^ 62 -> says (w_u62 v) u64_decode v.
Proof. intros H. exists (set_vint62 v). split; [reflexivity|]. apply is_varint_says, w62, H. Qed.

(** Numbers of JavaScript are written as Rust writes them. *)
Lemma set53_same v : safe v -> exists ps, u64_encode v = Val ps /\ set_vint53 v = Some (wire ps).
Proof.
  intros H. unfold u64_encode, varint_try_from. rewrite varint_max_spec. unfold safe in *. nums.
  destruct (v <=? 4611686018427387904 - 1) eqn:E0; [|lia]. clear E0. unfold varint_encode, varint_size, set_vint53, max_u53. nums.
  destruct (v <=? 63) eqn:E1, (v <? 64) eqn:E1'; try lia; cbv iota.
  - eexists. split; [reflexivity|]. unfold wire. cbn [map concat put_bytes_of int_bytes]. rewrite app_nil_r, N.mod_small by (change (2^8) with 256; lia). reflexivity.
  - destruct (v <=? 16383) eqn:E2, (v <? 16384) eqn:E2'; try lia; cbv iota.
    + eexists. split; [reflexivity|]. unfold wire. cbn [map concat put_bytes_of int_bytes]. rewrite app_nil_r, N.mod_small by (change (2^16) with 65536; lia).
      rewrite (N.lor_comm v). reflexivity.
    + destruct (v <=? 1073741823) eqn:E3, (v <? 1073741824) eqn:E3'; try lia; cbv iota.
      * eexists. split; [reflexivity|]. unfold wire. cbn [map concat put_bytes_of int_bytes]. rewrite app_nil_r, N.mod_small by (change (2^32) with 4294967296; lia).
        rewrite (N.lor_comm v). reflexivity.
      * destruct (v <=? 9007199254740991) eqn:E4; [|lia]. eexists. split; [reflexivity|]. unfold wire. cbn [map concat put_bytes_of int_bytes].
        rewrite app_nil_r, (N.lor_comm v). reflexivity.
Qed.
Lemma w53_same v : safe v -> exists ps, u64_encode v = Val ps /\ w_u53 v = Some (wire ps).
Proof.
  intros H. destruct (set53_same v H) as (ps & E & S). exists ps. split; [exact E|]. unfold w_u53.
  destruct (max_u53 <? v) eqn:L; [|exact S]. unfold max_u53, safe in *. nums. lia.
Qed.

Lemma says_counted w s : ok_bytes w s -> safe (N.of_nat (length s)) ->
  says (jseq (w_u53 (len s)) (w_bytes s)) (vec_decode w u8_decode) s.
Proof.
  intros [L1 L2] S. destruct (w53_same (len s) S) as (ps & E & W). destruct (bytes_after_len w s (conj L1 L2)) as (p1 & E1 & D).
  assert (p1 = ps) as -> by congruence. rewrite W. exists (wire ps ++ s). split; [reflexivity|]. intros rest.
  rewrite <- app_assoc. apply D.
Qed.
Lemma says_string w s : fair_text w s -> says (w_string s) (string_decode w) s.
Proof.
  intros [[L T] S]. destruct (says_counted w s L S) as (bs & E & D). exists bs. split; [exact E|]. intros rest.
  unfold string_decode. rewrite D. cbn [dbind]. rewrite utf8_valid_text by exact T. reflexivity.
Qed.

Lemma heard_interest w : heard w w_interest KAnnounceRequest (fair_text w) (fun s => s).
Proof. intros s H. exact (says_string w s H). Qed.
Lemma says_status b : says (w_u53 (if b : bool then 1 else 0)) status_decode b.
Proof. destruct b; eexists; (split; [reflexivity|]); intros rest; reflexivity. Qed.
Lemma heard_announce w : heard w (fun a => w_announce (fst a) (snd a)) KAnnounce (fun a => fair_text w (fst a)) announce_back.
Proof.
  intros [s b] H. cbn [fst snd] in *. unfold w_announce.
  refine (says_seq _ _ status_decode (fun b r => if b : bool then dmap Active (string_decode w r) else dmap Ended (string_decode w r)) b _ (says_status b) _).
  unfold announce_back. destruct b; cbn [fst snd]; apply says_map, says_string, H.
Qed.
Lemma heard_group w : heard w w_group KGroup (fun g => gh_subscribe g < 2 ^ 62 /\ safe (gh_sequence g)) (fun g => g).
Proof.
  intros [s q] [H1 H2]. cbn [gh_subscribe gh_sequence] in *. unfold w_group. cbn [gh_subscribe gh_sequence].
  exact (says_seq_map _ _ u64_decode (fun _ => u64_decode) GroupHeader s q (says62 s H1) (says53 q H2)).
Qed.
Lemma heard_frame w f : safe (N.of_nat (length f)) -> exists bs, w_frame f = Some (bs ++ f) /\
  forall rest, decode_kind w KFrame (bs ++ rest) = DOk (N.of_nat (length f)) rest.
Proof.
  intros H. destruct (says53 _ H) as (bs & E & D). exists bs. split; [|exact D]. unfold w_frame. unfold len. rewrite E. reflexivity.
Qed.
Lemma heard_info w : heard w w_info KSessionInfo safe info_back.
Proof.
  intros n H. exact (says_map _ u64_decode (fun n => match n with 0 => None | n => Some n end) n (says53 n H)).
Qed.
Lemma small_byte p : p < 64 -> Byte.of_N p = Some (u8 p) /\ w_u53 p = Some [u8 p] /\ n_of (u8 p) = p.
Proof.
  intros H. split; [|split].
  - unfold u8. rewrite N.mod_small by lia. destruct (Byte.of_N p) eqn:E; [reflexivity|].
    apply Byte.of_N_None_iff in E. lia.
  - unfold w_u53, set_vint53, max_u53. nums. destruct (9007199254740991 <? p) eqn:E1; [lia|]. destruct (p <=? 63) eqn:E2; [|lia]. reflexivity.
  - rewrite n_of_u8, N.mod_small; [reflexivity|lia].
Qed.
Lemma says_prio p : p < 64 -> says (w_u53 p) u8_decode (match Byte.of_N p with Some b => b | None => x00 end).
Proof. intros H. destruct (small_byte p H) as (-> & -> & _). exists [u8 p]. split; [reflexivity|]. intros rest. reflexivity. Qed.
Lemma heard_ok w : heard w w_subscribe_ok KSubscribeOk (fun p => p < 64) (fun p => match Byte.of_N p with Some b => b | None => x00 end).
Proof. intros p H. exact (says_prio p H). Qed.

(** The subscription, up to whatever priority *)
Lemma subscribe_parts w m : js_id m < 2 ^ 62 -> fair_text w (js_broadcast m) -> fair_text w (js_track m) ->
  exists bs, (forall tail, w_update (js_priority m) = Some tail -> w_subscribe m = Some (bs ++ tail)) /\
    forall rest, subscribe_decode w (bs ++ rest) = dbind (u8_decode rest) (fun p r => DOk (Subscribe (js_id m) (js_broadcast m) (js_track m) p) r).
Proof.
  intros H1 H2 H3. destruct (says62 _ H1) as (p1 & E1 & D1). destruct (says_string w _ H2) as (p2 & E2 & D2).
  destruct (says_string w _ H3) as (p3 & E3 & D3). exists (p1 ++ p2 ++ p3). split.
  - intros tail T. unfold w_subscribe. rewrite E1, E2, E3, T. cbn [jseq]. rewrite <- !app_assoc. reflexivity.
  - intros rest. rewrite <- !app_assoc. unfold subscribe_decode. rewrite D1. cbn [dbind]. rewrite D2. cbn [dbind]. rewrite D3. reflexivity.
Qed.
Lemma heard_subscribe w : heard w w_subscribe KSubscribe
  (fun m => js_id m < 2 ^ 62 /\ fair_text w (js_broadcast m) /\ fair_text w (js_track m) /\ js_priority m < 64) subscribe_back.
Proof.
  intros m (H1 & H2 & H3 & H4). destruct (subscribe_parts w m H1 H2 H3) as (bs & E & D).
  destruct (says_prio _ H4) as (t & Et & Dt). exists (bs ++ t). split; [apply E; exact Et|]. intros rest.
  rewrite <- app_assoc. cbn [decode_kind]. rewrite D, Dt. reflexivity.
Qed.
(** A larger priority: one byte of it is read, and the rest of it is left over. *)
Lemma wide_priority p : safe p -> 64 <= p -> exists b l, w_update p = Some (b :: l) /\ l <> [].
Proof.
  intros H L. destruct (w53 p H) as (bs & E & k & Hk & Hl & Hv & Hb).
  destruct bs as [|b l]; [exfalso; cbn in Hl; assert (k = 0 \/ k = 1 \/ k = 2 \/ k = 3) as [->|[->|[->| ->]]] by lia; cbn in Hl; lia|].
  exists b, l. split; [exact E|]. intros ->. cbn in Hl.
  assert (k = 0 \/ k = 1 \/ k = 2 \/ k = 3) as [->|[->|[->| ->]]] by lia; cbn in Hl; try lia.
  change (2 ^ (8 * 2 ^ 0 - 2)) with 64 in Hv. lia.
Qed.
Lemma subscribe_misheard w m : js_id m < 2 ^ 62 -> fair_text w (js_broadcast m) -> fair_text w (js_track m) ->
  safe (js_priority m) -> 64 <= js_priority m ->
  exists bs b l, w_subscribe m = Some bs /\ l <> [] /\
    forall rest, decode_kind w KSubscribe (bs ++ rest) = DOk (Subscribe (js_id m) (js_broadcast m) (js_track m) b) (l ++ rest).
Proof.
  intros H1 H2 H3 H4 H5. destruct (subscribe_parts w m H1 H2 H3) as (bs & E & D).
  destruct (wide_priority _ H4 H5) as (b & l & Et & NE). exists (bs ++ b :: l), b, l. split; [apply E, Et|]. split; [exact NE|].
  intros rest. rewrite <- app_assoc. cbn [decode_kind]. rewrite D. reflexivity.
Qed.
Lemma ok_misheard w p : safe p -> 64 <= p -> exists bs b l, w_subscribe_ok p = Some bs /\ l <> [] /\
  forall rest, decode_kind w KSubscribeOk (bs ++ rest) = DOk b (l ++ rest).
Proof.
  intros H L. destruct (wide_priority p H L) as (b & l & E & NE). exists (b :: l), b, l. split; [exact E|]. split; [exact NE|]. reflexivity.
Qed.

Lemma says_entries w : forall l, Forall (fun e => ok_int (fst e) /\ ok_bytes w (snd e)) l ->
  Forall (fun e => safe (N.of_nat (length (snd e)))) l -> forall m, NoDup (map fst (m ++ l)) ->
  says (fold_right (fun e k => jseq (w_entry e) k) (Some []) l) (ext_times w (len l) m) (m ++ l).
Proof.
  induction l as [|[id v] l IH]; intros F1 F2 m ND.
  - rewrite app_nil_r. exists []. split; reflexivity.
  - inversion F1 as [|? ? [A1 A2] A3]; inversion F2 as [|? ? B1 B2]; subst. cbn [fst snd] in *. cbn [fold_right].
    destruct (says62 id A1) as (p1 & E1 & D1). destruct (says_counted w v A2 B1) as (p2 & E2 & D2).
    destruct (IH A3 B2 (m ++ [(id, v)])) as (p3 & E3 & D3); [rewrite <- app_assoc; exact ND|].
    exists ((p1 ++ p2) ++ p3). rewrite E3. unfold w_entry. cbn [fst snd]. rewrite E1, E2. split; [reflexivity|]. intros rest.
    rewrite len_cons, N.add_1_l, ext_times_succ. unfold ext_step. rewrite <- !app_assoc, D1. cbn [dbind].
    assert (M : ext_mem id m = false).
    { apply ext_mem_false. rewrite map_app in ND. cbn [map fst] in ND. apply NoDup_remove_2 in ND.
      intros Hin. apply ND. apply in_or_app. auto. }
    rewrite M, D2. cbn [dbind]. rewrite D3, <- app_assoc. reflexivity.
Qed.
Lemma says_extensions w m : fair_extensions w m -> says (w_extensions m) (extensions_decode w) m.
Proof.
  intros ((ND & L & F) & S & FS). unfold w_extensions.
  refine (says_seq _ _ u64_decode (fun n => ext_times w n []) (len m) _ (says53 _ S) _).
  exact (says_entries w m F FS [] ND).
Qed.
Lemma says_version_list : forall l, Forall safe l ->
  says (fold_right (fun v k => jseq (w_u53 v) k) (Some []) l) (decode_times version_decode (len l)) l.
Proof.
  induction l as [|v l IH]; intros F.
  - exists []. split; reflexivity.
  - inversion F; subst. cbn [fold_right]. destruct (says53 v H1) as (p1 & E1 & D1). destruct (IH H2) as (p2 & E2 & D2).
    rewrite E1, E2. exists (p1 ++ p2). split; [reflexivity|]. intros rest.
    rewrite len_cons, N.add_1_l, decode_times_succ by apply eats_u64. unfold version_decode at 1. rewrite <- app_assoc, D1. cbn [dbind].
    rewrite D2. reflexivity.
Qed.
Lemma says_versions vs : safe (N.of_nat (length vs)) -> Forall safe vs -> says (w_versions vs) versions_decode vs.
Proof.
  intros S F. unfold w_versions. exact (says_seq _ _ u64_decode (fun n => decode_times version_decode n) (len vs) _ (says53 _ S) (says_version_list vs F)).
Qed.
Lemma heard_client w : heard w w_client KClientSetup
  (fun m => safe (N.of_nat (length (cs_versions m))) /\ Forall safe (cs_versions m) /\ fair_extensions w (cs_extensions m)) (fun m => m).
Proof.
  intros [vs x] (S & F & X). cbn [cs_versions cs_extensions] in *. unfold w_client. cbn [cs_versions cs_extensions].
  exact (says_seq_map _ _ versions_decode (fun _ => extensions_decode w) ClientSetup vs x (says_versions vs S F) (says_extensions w x X)).
Qed.
Lemma heard_server w : heard w w_server KServerSetup
  (fun m => safe (ss_version m) /\ fair_extensions w (ss_extensions m)) (fun m => m).
Proof.
  intros [v x] (S & X). cbn [ss_version ss_extensions] in *. unfold w_server. cbn [ss_version ss_extensions].
  exact (says_seq_map _ _ version_decode (fun _ => extensions_decode w) ServerSetup v x (says53 v S) (says_extensions w x X)).
Qed.

Lemma interest_exact lossy p ps r rest : encode_kind KAnnounceRequest p = Val ps -> is_text p -> content r = wire ps ++ rest ->
  (gets (j_interest lossy) r p rest <-> plain_text p).
Proof.
  intros E T C. unfold j_interest. rewrite (gets_iff _ _ _ _ _ (den_string lossy)), C. split.
  - intros F. eapply fstring_exact; eauto.
  - intros P. apply fstring_plain; assumption.
Qed.
Lemma group_large m ps r rest : encode_kind KGroup m = Val ps -> ~ safe (gh_sequence m) -> content r = wire ps ++ rest -> fst (j_group r) = JThrow.
Proof.
  intros E S C. rewrite (fst_den _ _ _ den_group), C. cbn [encode_kind] in E. unfold group_header_encode in E.
  apply eseq_val in E. destruct E as (x & y & E1 & E2 & ->). rewrite wire_app, <- app_assoc.
  unfold f_group, fbind. rewrite (f62 _ _ _ E1), (f53_throw _ _ _ E2) by exact S. reflexivity.
Qed.
