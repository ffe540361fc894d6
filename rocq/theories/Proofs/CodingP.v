From Coq Require Import NArith ZArith List Lia Bool.
From Coq Require Import Init.Byte Strings.Byte.
From Coq Require Import ZifyBool ZifyNat ZifyN.
From Verif.Model Require Import Base Coding.
From Verif.Spec Require Import CodingSpec.
From Verif.Proofs Require Import BaseP.
Import ListNotations.
Open Scope N_scope.

(** ** Laws of decoders *)
Record good {A} (dec : decoder A) : Prop := Good {
  g_suffix : forall bs a r, dec bs = DOk a r -> exists p, bs = p ++ r;
  g_ok : forall bs a r x, dec bs = DOk a r -> dec (bs ++ x) = DOk a (r ++ x);
  g_err : forall bs e x, dec bs = DErr e -> e <> Short -> dec (bs ++ x) = DErr e;
  g_total : forall bs, dec bs <> DFuel }.

Definition eats {A} (dec : decoder A) : Prop :=
  forall bs a r, dec bs = DOk a r -> (length r < length bs)%nat.

Definition rt {A} (wf : A -> Prop) (enc : encoder A) (dec : decoder A) : Prop :=
  forall a, wf a -> exists ps, enc a = Val ps /\ forall r, dec (wire ps ++ r) = DOk a r.

Lemma good_length {A} (dec : decoder A) : good dec ->
  forall bs a r, dec bs = DOk a r -> (length r <= length bs)%nat.
Proof. intros G bs a r H. destruct (g_suffix _ G _ _ _ H) as [p ->]. rewrite app_length. lia. Qed.

Lemma good_bind {A B} (d : decoder A) (f : A -> decoder B) :
  good d -> (forall a, good (f a)) -> good (fun r => dbind (d r) (fun a r => f a r)).
Proof.
  intros Gd Gf. constructor.
  - intros bs b r H. unfold dbind in H. destruct (d bs) as [a r1| |] eqn:E; try discriminate.
    destruct (g_suffix _ Gd _ _ _ E) as [p1 ->]. destruct (g_suffix _ (Gf a) _ _ _ H) as [p2 ->].
    exists (p1 ++ p2). apply app_assoc.
  - intros bs b r x H. unfold dbind in *. destruct (d bs) as [a r1| |] eqn:E; try discriminate.
    rewrite (g_ok _ Gd _ _ _ x E). apply (g_ok _ (Gf a)). exact H.
  - intros bs e x H He. unfold dbind in *. destruct (d bs) as [a r1|e1|] eqn:E; try discriminate.
    + rewrite (g_ok _ Gd _ _ _ x E). apply (g_err _ (Gf a)); assumption.
    + injection H as ->. rewrite (g_err _ Gd _ _ x E He). reflexivity.
  - intros bs. unfold dbind. destruct (d bs) as [a r1|e1|] eqn:E.
    + apply (g_total _ (Gf a)).
    + discriminate.
    + exfalso; exact (g_total _ Gd _ E).
Qed.

Lemma eats_bind {A B} (d : decoder A) (f : A -> decoder B) :
  eats d -> (forall a, good (f a)) -> eats (fun r => dbind (d r) (fun a r => f a r)).
Proof.
  intros Ed Gf bs b r H. unfold dbind in H. destruct (d bs) as [a r1| |] eqn:E; try discriminate.
  apply Ed in E. apply (good_length _ (Gf a)) in H. lia.
Qed.

Lemma good_ret {A} (a : A) : good (fun r => DOk a r).
Proof.
  constructor; intros; try congruence.
  - injection H as <- <-. exists []. reflexivity.
Qed.

Lemma good_fail {A} e : good (A := A) (fun _ => DErr e).
Proof. constructor; intros; congruence. Qed.

Lemma good_map {A B} (f : A -> B) (d : decoder A) : good d -> good (fun r => dmap f (d r)).
Proof. intros G. unfold dmap. apply good_bind; [exact G|]. intros a. apply good_ret. Qed.

Lemma eats_map {A B} (f : A -> B) (d : decoder A) : eats d -> eats (fun r => dmap f (d r)).
Proof. intros G. unfold dmap. apply eats_bind; [exact G|]. intros a. apply good_ret. Qed.

Lemma good_if {A} (c : bool) (d1 d2 : decoder A) : good d1 -> good d2 -> good (fun r => if c then d1 r else d2 r).
Proof. destruct c; auto. Qed.

(** ** Writers *)
Lemma wire_app a b : wire (a ++ b) = wire a ++ wire b.
Proof. unfold wire. rewrite map_app, concat_app. reflexivity. Qed.

Lemma eseq_val a b ps : eseq a b = Val ps -> exists x y, a = Val x /\ b = Val y /\ ps = x ++ y.
Proof. destruct a; cbn; [|discriminate]. destruct b; [|discriminate]. intros [= <-]. eauto. Qed.

Lemma rt_seq {A B C} (wfA : A -> Prop) (wfB : B -> Prop) ea (da : decoder A) eb (db : decoder B)
  (mk : A -> B -> C) (pa : C -> A) (pb : C -> B) (wf : C -> Prop) :
  rt wfA ea da -> rt wfB eb db ->
  (forall c, wf c -> wfA (pa c) /\ wfB (pb c)) -> (forall c, mk (pa c) (pb c) = c) ->
  rt wf (fun c => eseq (ea (pa c)) (eb (pb c)))
        (fun r => dbind (da r) (fun a r => dbind (db r) (fun b r => DOk (mk a b) r))).
Proof.
  intros Ha Hb Hwf Hmk c Hc. destruct (Hwf c Hc) as [Wa Wb].
  destruct (Ha _ Wa) as (pa' & Ea & Da). destruct (Hb _ Wb) as (pb' & Eb & Db).
  exists (pa' ++ pb'). rewrite Ea, Eb. split; [reflexivity|]. intros r.
  rewrite wire_app, <- app_assoc, Da. cbn [dbind]. rewrite Db. cbn [dbind]. rewrite Hmk. reflexivity.
Qed.

(** ** VarInt *)
Lemma lor_tag t k x : x < 2 ^ k -> N.lor (N.shiftl t k) x = t * 2 ^ k + x.
Proof.
  intros H. rewrite N.shiftl_mul_pow2.
  rewrite <- N.lxor_lor, N.add_nocarry_lxor; auto;
  apply N.bits_inj_0; intros n; rewrite N.land_spec;
  destruct (N.lt_ge_cases n k) as [L|L].
  1,3: rewrite N.mul_pow2_bits_low by lia; reflexivity.
  all: rewrite <- (N.mod_small x (2 ^ k)) by assumption; rewrite N.mod_pow2_bits_high by lia; apply andb_false_r.
Qed.

Ltac rhs_compute := match goal with |- _ < ?x => let y := eval vm_compute in x in change x with y end.

Lemma varint_max_spec : varint_max = 2 ^ 62 - 1.
Proof. reflexivity. Qed.

Lemma varint_size_cases v : v < 2 ^ 62 ->
  exists k, k < 4 /\ varint_size v = 2 ^ k /\ v < 2 ^ (8 * 2 ^ k - 2) /\
    (forall k', k' < k -> 2 ^ (8 * 2 ^ k' - 2) <= v).
Proof.
  intros H. unfold varint_size.
  destruct (v <? 2 ^ 6) eqn:E0; [exists 0|destruct (v <? 2 ^ 14) eqn:E1; [exists 1|
    destruct (v <? 2 ^ 30) eqn:E2; [exists 2|exists 3]]].
  all: split; [lia|]; split; [reflexivity|]; split; [cbn in *; lia|].
  all: intros k' Hk'; assert (k' = 0 \/ k' = 1 \/ k' = 2) as [->|[->| ->]] by lia; cst; lia.
Qed.

Lemma varint_encode_form v : v < 2 ^ 62 ->
  exists ps k, u64_encode v = Val ps /\ k < 4 /\ varint_size v = 2 ^ k /\
     varint_form k v (wire ps) /\ sizer ps = 2 ^ k /\
    (forall k', k' < k -> 2 ^ (8 * 2 ^ k' - 2) <= v).
Proof.
  intros H. destruct (varint_size_cases v H) as (k & Hk & Hs & Hv & Hmin).
  unfold u64_encode, varint_try_from. rewrite varint_max_spec.
  destruct (v <=? 2 ^ 62 - 1) eqn:E; [|cbn in *; lia]. clear E.
  unfold varint_encode. rewrite Hs.
  assert (k = 0 \/ k = 1 \/ k = 2 \/ k = 3) as [->|[->|[->| ->]]] by lia; cbn [N.pow Pos.pow Pos.iter Pos.mul].
  1: eexists _, 0. 2: eexists _, 1. 3: eexists _, 2. 4: eexists _, 3.
  all: split; [reflexivity|]; split; [reflexivity|]; split; [reflexivity|].
  all: split; [|split; [reflexivity|exact Hmin]].
  all: unfold varint_form, wire; cbn [map concat put_bytes_of int_bytes]; rewrite app_nil_r, be_bytes_length;
    split; [reflexivity|]; split; [exact Hv|]; rewrite <- be_value_spec, be_value_be_bytes.
  all: change (2 ^ 62) with 4611686018427387904 in *; try change (2 ^ 8) with 256 in *;
    try change (2 ^ 16) with 65536 in *; try change (2 ^ 32) with 4294967296 in *;
    match type of Hv with _ < ?x => let y := eval vm_compute in x in change x with y in * end.
  - rewrite N.mod_small by lia. reflexivity.
  - rewrite N.mod_small by lia. cbn. lia.
  - rewrite N.mod_small by lia. rewrite lor_tag by (cbn; lia). reflexivity.
  - rewrite N.mod_small by lia. rewrite lor_tag by (cbn; lia). rhs_compute; lia.
  - rewrite N.mod_small by lia. rewrite lor_tag by (cbn; lia). reflexivity.
  - rewrite N.mod_small by lia. rewrite lor_tag by (cbn; lia). rhs_compute; lia.
  - rewrite lor_tag by (cbn; lia). reflexivity.
  - rewrite lor_tag by (cbn; lia). rhs_compute; lia.
Qed.

Lemma u64_encode_panic v : u64_encode v = Panic <-> 2 ^ 62 <= v.
Proof.
  split.
  - intros H. destruct (N.lt_ge_cases v (2 ^ 62)) as [L|L]; [|exact L].
    destruct (varint_encode_form v L) as (ps & k & E & _). congruence.
  - intros H. unfold u64_encode, varint_try_from. rewrite varint_max_spec.
    destruct (v <=? 2 ^ 62 - 1) eqn:E; [cbn in *; lia|reflexivity].
Qed.

(** Decoding computes exactly the denotation of the forms. *)
Lemma varint_decode_cons b r :
  varint_decode (b :: r) =
  (let k := n_of b / 64 in let n := 2 ^ k - 1 in
   if len r <? n then DErr Short
   else DOk (be_value (b :: firstn (N.to_nat n) r) - k * 2 ^ (8 * 2 ^ k - 2)) (skipn (N.to_nat n) r)).
Proof.
  unfold varint_decode. bn b. rewrite N.shiftr_div_pow2. change (2 ^ 6) with 64.
  set (k := n_of b / 64). assert (k < 4) by (unfold k; lia).
  assert (Hl : n_of (u8 (N.land (n_of b) 63)) = n_of b - k * 64).
  { rewrite n_of_u8. change 63 with (N.ones 6). rewrite N.land_ones. change (2 ^ 6) with 64. unfold k. lia. }
  assert (Hk : k = 0 \/ k = 1 \/ k = 2 \/ k = 3) by lia.
  assert (Hbe : forall l, be_value (u8 (N.land (n_of b) 63) :: l) = be_value (b :: l) - k * 64 * 256 ^ len l).
  { intros l. unfold be_value. cbn [be_value_acc].
    rewrite (be_value_acc_split _ l), (be_value_acc_split (0 * 256 + n_of b) l). rewrite Hl.
    assert (k * 64 <= n_of b) by (unfold k; lia). clear Hl.
    nia. }
  assert (Hf : forall n : nat, (len r <? N.of_nat n) = false -> len (firstn n r) = N.of_nat n).
  { intros n Hn. unfold len in *. rewrite firstn_length. lia. }
  destruct Hk as [->|[->|[->| ->]]]; cbv zeta.
  - change (2 ^ 0 - 1) with 0. destruct (len r <? 0) eqn:E; [lia|]. cbn. rewrite Hl. reflexivity.
  - change (2 ^ 1 - 1) with 1. destruct r as [|b1 r]; [reflexivity|].
    destruct (len (b1 :: r) <? 1) eqn:E; [rewrite len_cons in E; lia|].
    rewrite Hbe. cbn [firstn]. reflexivity.
  - change (2 ^ 2 - 1) with 3. destruct (len r <? 3) eqn:E; [reflexivity|].
    rewrite Hbe. change 3 with (N.of_nat 3) in E. rewrite (Hf 3%nat) by exact E. reflexivity.
  - change (2 ^ 3 - 1) with 7. destruct (len r <? 7) eqn:E; [reflexivity|].
    rewrite Hbe. change 7 with (N.of_nat 7) in E. rewrite (Hf 7%nat) by exact E. reflexivity.
Qed.

Lemma be_value_cons b l : be_value (b :: l) = n_of b * 256 ^ len l + be_value l.
Proof. unfold be_value. cbn [be_value_acc]. rewrite be_value_acc_split. reflexivity. Qed.

(** The form of a non-empty string is fixed by its first byte. *)
Lemma varint_form_first k v b l : k < 4 -> varint_form k v (b :: l) -> k = n_of b / 64.
Proof.
  intros Hk (Hl & Hv & Hb). rewrite <- be_value_spec, be_value_cons in Hb.
  pose proof (be_value_lt l) as Hlt. cbn [length] in Hl. fold (len l) in *.
  assert (Hlen : len l = 2 ^ k - 1) by (unfold len in *; lia). rewrite Hlen in *. bn b.
  assert (k = 0 \/ k = 1 \/ k = 2 \/ k = 3) as [->|[->|[->| ->]]] by lia; cst; lia.
Qed.

Lemma varint_decode_complete k v p r : k < 4 -> varint_form k v p -> varint_decode (p ++ r) = DOk v r.
Proof.
  intros Hk H. destruct p as [|b l].
  { exfalso. destruct H as (Hl & _). cbn in Hl.
    assert (k = 0 \/ k = 1 \/ k = 2 \/ k = 3) as [->|[->|[->| ->]]] by lia; cst; lia. }
  cbn [app]. rewrite varint_decode_cons. rewrite <- (varint_form_first k v b l Hk H). cbv zeta.
  destruct H as (Hl & Hv & Hb). cbn [length] in Hl.
  assert (Hlen : length l = N.to_nat (2 ^ k - 1)) by lia.
  rewrite len_app. destruct (len l + len r <? 2 ^ k - 1) eqn:E; [unfold len in *; lia|].
  rewrite <- Hlen, firstn_len_app, skipn_len_app, be_value_spec, Hb. f_equal. lia.
Qed.

Lemma varint_decode_sound bs v r : varint_decode bs = DOk v r ->
  exists p, bs = p ++ r /\ is_varint v p.
Proof.
  destruct bs as [|b l]; [discriminate|]. rewrite varint_decode_cons. cbv zeta.
  set (k := n_of b / 64). destruct (len l <? 2 ^ k - 1) eqn:E; [discriminate|]. intros [= <- <-].
  bn b. assert (Hk : k < 4) by (unfold k; lia).
  exists (b :: firstn (N.to_nat (2 ^ k - 1)) l). split.
  { cbn [app]. rewrite firstn_skipn. reflexivity. }
  exists k. split; [exact Hk|].
  assert (Hl : len (firstn (N.to_nat (2 ^ k - 1)) l) = 2 ^ k - 1).
  { unfold len in *. rewrite firstn_length. lia. }
  unfold varint_form. rewrite <- be_value_spec. fold (len (b :: firstn (N.to_nat (2 ^ k - 1)) l)).
  rewrite len_cons, Hl, be_value_cons, Hl.
  pose proof (be_value_lt (firstn (N.to_nat (2 ^ k - 1)) l)) as Hlt. rewrite Hl in Hlt.
  revert Hlt. generalize (be_value (firstn (N.to_nat (2 ^ k - 1)) l)). intros y Hy. clear Hl E.
  assert (Hb2 : k * 64 <= n_of b /\ n_of b < k * 64 + 64) by (unfold k; lia).
  clearbody k.
  assert (k = 0 \/ k = 1 \/ k = 2 \/ k = 3) as [->|[->|[->| ->]]] by lia; cst; lia.
Qed.

Lemma is_varint_lt v p : is_varint v p -> v < 2 ^ 62.
Proof.
  intros (k & Hk & _ & Hv & _).
  assert (k = 0 \/ k = 1 \/ k = 2 \/ k = 3) as [->|[->|[->| ->]]] by lia; cst; lia.
Qed.

Lemma varint_decode_err bs e : varint_decode bs = DErr e -> e = Short.
Proof.
  destruct bs as [|b l]; [intros [= <-]; reflexivity|]. rewrite varint_decode_cons. cbv zeta.
  destruct (_ <? _); [intros [= <-]; reflexivity|discriminate].
Qed.

Lemma good_varint : good varint_decode.
Proof.
  constructor.
  - intros bs a r H. apply varint_decode_sound in H. destruct H as (p & -> & _). eauto.
  - intros bs a r x H. apply varint_decode_sound in H. destruct H as (p & -> & k & Hk & Hf).
    rewrite <- app_assoc. apply varint_decode_complete with (k := k); assumption.
  - intros bs e x H He. apply varint_decode_err in H. congruence.
  - intros [|b l]; [discriminate|]. rewrite varint_decode_cons. cbv zeta. destruct (_ <? _); discriminate.
Qed.

Lemma eats_varint : eats varint_decode.
Proof.
  intros bs a r H. apply varint_decode_sound in H. destruct H as (p & -> & k & Hk & Hl & _).
  rewrite app_length.
  assert (k = 0 \/ k = 1 \/ k = 2 \/ k = 3) as [->|[->|[->| ->]]] by lia; cst; lia.
Qed.

Definition u62 (v : N) : Prop := v < 2 ^ 62.

Lemma rt_u64 : rt u62 u64_encode u64_decode.
Proof.
  intros v Hv. destruct (varint_encode_form v Hv) as (ps & k & E & Hk & _ & Hf & _).
  exists ps. split; [exact E|]. intros r. apply varint_decode_complete with (k := k); assumption.
Qed.

Lemma good_u64 : good u64_decode. Proof. exact good_varint. Qed.
Lemma eats_u64 : eats u64_decode. Proof. exact eats_varint. Qed.

Lemma good_usize w : good (usize_decode w).
Proof. apply good_map, good_varint. Qed.
Lemma eats_usize w : eats (usize_decode w).
Proof. unfold usize_decode. apply eats_map, eats_varint. Qed.

Lemma usize64 r : usize_decode 64 r = u64_decode r.
Proof.
  unfold usize_decode, u64_decode, dmap, dbind. destruct (varint_decode r) eqn:E; auto.
  apply varint_decode_sound in E. destruct E as (p & _ & Hp). apply is_varint_lt in Hp.
  rewrite N.mod_small; [reflexivity|]. cbn in *; lia.
Qed.

Lemma good_u32 : good u32_decode.
Proof.
  unfold u32_decode. apply good_bind; [apply good_varint|]. intros v.
  destruct (varint_narrow 32 v); [apply good_ret|apply good_fail].
Qed.

Lemma rt_u32 : rt (fun v => v < 2 ^ 32) u32_encode u32_decode.
Proof.
  intros v Hv.
  assert (Hv' : v < 2 ^ 62) by (cbn in *; lia).
  destruct (varint_encode_form v Hv') as (ps & k & E & Hk & _ & Hf & _).
  exists ps. split.
  { unfold u64_encode, varint_try_from in E. rewrite varint_max_spec in E.
    destruct (v <=? 2 ^ 62 - 1); [exact E|discriminate]. }
  intros r. unfold u32_decode. rewrite (varint_decode_complete k v) by assumption. cbn [dbind].
  unfold varint_narrow. destruct (v <=? 2 ^ 32 - 1) eqn:E1; [|cbn in *; lia].
  rewrite N.mod_small by assumption. reflexivity.
Qed.

(** ** Primitives *)
Lemma good_u8 : good u8_decode.
Proof.
  constructor.
  - intros [|b l] a r; [discriminate|]. intros [= -> ->]. exists [a]; reflexivity.
  - intros [|b l] a r x; [discriminate|]. intros [= -> ->]. reflexivity.
  - intros [|b l] e x; [intros [= <-]; congruence|discriminate].
  - intros [|b l]; discriminate.
Qed.
Lemma eats_u8 : eats u8_decode.
Proof. intros [|b l] a r; [discriminate|]. intros [= -> ->]. cbn; lia. Qed.
Lemma rt_u8 : rt (fun _ => True) u8_encode u8_decode.
Proof.
  intros b _. exists [PInt 1 BE (n_of b)]. split; [reflexivity|]. intros r. cbn.
  rewrite u8_n_of. reflexivity.
Qed.

Lemma good_i8 : good i8_decode.
Proof.
  constructor.
  - intros [|b l] a r; [discriminate|]. intros [= <- ->]. exists [b]; reflexivity.
  - intros [|b l] a r x; [discriminate|]. intros [= <- ->]. reflexivity.
  - intros [|b l] e x; [intros [= <-]; congruence|discriminate].
  - intros [|b l]; discriminate.
Qed.
Lemma rt_i8 : rt (fun v => (-128 <= v <= 127)%Z) i8_encode i8_decode.
Proof.
  intros v Hv. eexists. split; [reflexivity|]. intros r. cbn. rewrite n_of_u8. f_equal. lia.
Qed.

(** ** Loops *)
Section Loop.
Context {A : Type} (dec : decoder A).
Hypothesis G : good dec.
Hypothesis E : eats dec.

Lemma decode_loop_fuel f1 f2 n r : (length r < f1)%nat -> (length r < f2)%nat ->
  decode_loop dec f1 n r = decode_loop dec f2 n r.
Proof.
  revert f2 n r; induction f1 as [|f1 IH]; intros f2 n r H1 H2; [lia|].
  destruct f2 as [|f2]; [lia|]. cbn [decode_loop]. destruct n; [reflexivity|].
  destruct (dec r) as [a r1| |] eqn:Ed; cbn [dbind]; auto.
  apply E in Ed. rewrite (IH f2) by lia. reflexivity.
Qed.

Lemma decode_times_0 r : decode_times dec 0 r = DOk [] r.
Proof. reflexivity. Qed.

Lemma decode_times_succ n r :
  decode_times dec (N.succ n) r =
  dbind (dec r) (fun a r => dbind (decode_times dec n r) (fun l r => DOk (a :: l) r)).
Proof.
  unfold decode_times at 1. cbn [decode_loop]. destruct (N.succ n) eqn:En; [lia|].
  rewrite <- En, N.pred_succ. destruct (dec r) as [a r1| |] eqn:Ed; cbn [dbind]; auto.
  apply E in Ed. unfold decode_times. rewrite (decode_loop_fuel (length r) (S (length r1))) by lia. reflexivity.
Qed.

Lemma good_ext {B} (d1 d2 : decoder B) : (forall r, d1 r = d2 r) -> good d1 -> good d2.
Proof.
  intros He [a b c d]. constructor; intros *; rewrite <- ?He; eauto.
Qed.

Lemma good_times n : good (decode_times dec n).
Proof.
  induction n as [|n IH] using N.peano_ind.
  - apply good_ret.
  - eapply good_ext; [intros; symmetry; apply decode_times_succ|].
    apply good_bind; [exact G|]. intros a. apply good_bind; [exact IH|]. intros l. apply good_ret.
Qed.

Lemma rt_times wf enc : rt wf enc dec ->
  forall l, Forall wf l -> exists ps, seq_encode enc l = Val ps /\
    forall r, decode_times dec (len l) (wire ps ++ r) = DOk l r.
Proof.
  intros Hrt l Hl. induction Hl as [|a l Ha Hl (ps & Hps & Hd)].
  - exists []. split; [reflexivity|]. intros r. reflexivity.
  - destruct (Hrt a Ha) as (pa & Ea & Da). exists (pa ++ ps). split.
    + cbn [seq_encode fold_right]. fold (seq_encode enc l). rewrite Ea, Hps. reflexivity.
    + intros r. rewrite len_cons, N.add_1_l, decode_times_succ, wire_app, <- app_assoc, Da. cbn [dbind].
      rewrite Hd. reflexivity.
Qed.
End Loop.

Lemma good_vec {A} w (dec : decoder A) : good dec -> eats dec -> good (vec_decode w dec).
Proof. intros G E. apply good_bind; [apply good_usize|]. intros n. apply good_times; assumption. Qed.
Lemma eats_vec {A} w (dec : decoder A) : good dec -> eats dec -> eats (vec_decode w dec).
Proof. intros G E. apply eats_bind; [apply eats_usize|]. intros n. apply good_times; assumption. Qed.

Definition fits (w : N) {A} (l : list A) : Prop := len l < 2 ^ w /\ len l < 2 ^ 62.

Lemma rt_usize w : rt (fun v => v < 2 ^ w /\ v < 2 ^ 62) u64_encode (usize_decode w).
Proof.
  intros v [Hw Hv]. destruct (rt_u64 v Hv) as (ps & E & D). exists ps. split; [exact E|].
  intros r. unfold usize_decode. change varint_decode with u64_decode. rewrite D. cbn.
  rewrite N.mod_small by assumption. reflexivity.
Qed.

Lemma rt_vec {A} w wf enc (dec : decoder A) : good dec -> eats dec -> rt wf enc dec ->
  rt (fun l => fits w l /\ Forall wf l) (vec_encode enc) (vec_decode w dec).
Proof.
  intros G E Hrt l [Hf Hl]. destruct (rt_usize w _ Hf) as (p1 & E1 & D1).
  destruct (rt_times dec E wf enc Hrt l Hl) as (p2 & E2 & D2).
  exists (p1 ++ p2). unfold vec_encode. rewrite E1, E2. split; [reflexivity|]. intros r.
  unfold vec_decode. rewrite wire_app, <- app_assoc, D1. cbn [dbind]. apply D2.
Qed.

Lemma seq_encode_u8 l : exists ps, seq_encode u8_encode l = Val ps /\ wire ps = l.
Proof.
  induction l as [|b l (ps & E & W)].
  - exists []; split; reflexivity.
  - exists ([PInt 1 BE (n_of b)] ++ ps). cbn [seq_encode fold_right]. fold (seq_encode u8_encode l). rewrite E.
    split; [reflexivity|]. rewrite wire_app, W. cbn. rewrite u8_n_of. reflexivity.
Qed.

Definition byte_vec_decode w := vec_decode w u8_decode.

Lemma good_bytes w : good (vec_decode w u8_decode).
Proof. apply good_vec; [apply good_u8|apply eats_u8]. Qed.
Lemma eats_bytes w : eats (vec_decode w u8_decode).
Proof. apply eats_vec; [apply good_u8|apply eats_u8]. Qed.

Lemma rt_bytes w : rt (fun l : bytes => fits w l) (vec_encode u8_encode) (vec_decode w u8_decode).
Proof.
  intros l Hl. apply (rt_vec w (fun _ => True)); auto using good_u8, eats_u8, rt_u8.
  split; [exact Hl|]. apply Forall_forall. auto.
Qed.

(** Any way of writing the same bytes after the same length is decoded alike. *)
Lemma bytes_after_len w (l : bytes) : fits w l -> exists p1, u64_encode (len l) = Val p1 /\
  forall r, vec_decode w u8_decode (wire p1 ++ l ++ r) = DOk l r.
Proof.
  intros Hl. destruct (rt_bytes w l Hl) as (ps & E & D). unfold vec_encode in E.
  apply eseq_val in E. destruct E as (p1 & p2 & E1 & E2 & ->).
  exists p1. split; [exact E1|]. intros r.
  destruct (seq_encode_u8 l) as (p2' & E2' & W). rewrite E2 in E2'. injection E2' as <-.
  specialize (D r). rewrite wire_app, W, <- app_assoc in D. exact D.
Qed.

Lemma good_string w : good (string_decode w).
Proof.
  apply good_bind; [apply good_bytes|]. intros v. destruct (utf8_valid v); [apply good_ret|apply good_fail].
Qed.
Lemma eats_string w : eats (string_decode w).
Proof.
  apply eats_bind; [apply eats_bytes|]. intros v. destruct (utf8_valid v); [apply good_ret|apply good_fail].
Qed.
Definition text (w : N) (s : bytes) : Prop := fits w s /\ is_text s.
Lemma rt_string w : rt (text w) string_encode (string_decode w).
Proof.
  intros s [Hf Ht]. destruct (bytes_after_len w s Hf) as (p1 & E1 & D1).
  exists (p1 ++ [PBuf [s]]). unfold string_encode. rewrite E1. split; [reflexivity|]. intros r.
  rewrite wire_app. cbn [wire map concat put_bytes_of]. rewrite !app_nil_r, <- app_assoc.
  unfold string_decode. rewrite D1. cbn [dbind]. rewrite (utf8_valid_text _ Ht). reflexivity.
Qed.

Lemma good_duration : good duration_decode.
Proof. apply good_map, good_u64. Qed.
Lemma rt_duration_trunc d : d / 1000 < 2 ^ 62 ->
  exists ps, duration_encode d = Val ps /\ forall r, duration_decode (wire ps ++ r) = DOk (d - d mod 1000) r.
Proof.
  intros H. destruct (rt_u64 (d / 1000) H) as (ps & E & D). exists ps. unfold duration_encode.
  destruct (d / 1000 <? 2 ^ 64) eqn:El; [|cbn in *; lia]. split; [exact E|]. intros r.
  unfold duration_decode. rewrite D. cbn. f_equal. lia.
Qed.

Lemma good_blob w : good (blob_decode w).
Proof.
  apply good_bind; [apply good_usize|]. intros n. constructor.
  - intros bs a r. destruct (len bs <? n) eqn:E; [discriminate|]. intros [= <- <-].
    exists (firstn (N.to_nat n) bs). symmetry; apply firstn_skipn.
  - intros bs a r x. destruct (len bs <? n) eqn:E; [discriminate|]. intros [= <- <-].
    rewrite len_app. destruct (len bs + len x <? n) eqn:E2; [lia|].
    unfold len in E. rewrite firstn_app, skipn_app.
    replace (N.to_nat n - length bs)%nat with 0%nat by lia. cbn. rewrite app_nil_r. reflexivity.
  - intros bs e x. destruct (len bs <? n); [intros [= <-]; congruence|discriminate].
  - intros bs. destruct (len bs <? n); discriminate.
Qed.
Lemma rt_blob w : rt (fun l : bytes => fits w l) blob_encode (blob_decode w).
Proof.
  intros l Hl. destruct (rt_usize w (len l) Hl) as (p & E & D). exists (p ++ [PSlice l]).
  unfold blob_encode. rewrite E. split; [reflexivity|]. intros r. rewrite wire_app.
  cbn [wire map concat put_bytes_of]. rewrite app_nil_r, <- app_assoc. unfold blob_decode. rewrite D. cbn [dbind].
  rewrite len_app. destruct (len l + len r <? len l) eqn:El; [lia|].
  unfold len. rewrite Nnat.Nat2N.id, firstn_len_app, skipn_len_app. reflexivity.
Qed.

(** ** Derived: short on strict prefixes *)
Lemma rt_good_short {A} wf enc (dec : decoder A) : good dec -> rt wf enc dec ->
  forall a ps p, wf a -> enc a = Val ps -> strict_prefix p (wire ps) -> dec p = DErr Short.
Proof.
  intros G Hrt a ps p Wa E (x & Hx & Hp). destruct (Hrt a Wa) as (ps' & E' & D). rewrite E in E'. injection E' as <-.
  specialize (D []). rewrite app_nil_r in D.
  destruct (dec p) as [a' r|e|] eqn:Ed.
  - exfalso. pose proof (g_ok _ G _ _ _ x Ed) as H. rewrite <- Hp, D in H. injection H as _ Hr.
    destruct r; [|discriminate]. apply Hx. cbn in Hr. congruence.
  - destruct e; try reflexivity; exfalso;
    (pose proof (g_err _ G _ _ x Ed) as H; rewrite <- Hp, D in H; discriminate H; discriminate).
  - exfalso. exact (g_total _ G _ Ed).
Qed.

(** ** Sizer *)
Lemma int_bytes_length w e v : length (int_bytes w e v) = w.
Proof. destruct e; cbn; rewrite ?rev_length; apply be_bytes_length. Qed.

Lemma sizer_put_spec n p : sizer_put n p = n + len (put_bytes_of p).
Proof.
  destruct p; cbn [sizer_put put_bytes_of]; unfold len; rewrite ?int_bytes_length, ?repeat_length; try reflexivity.
  f_equal. induction chunks as [|c cs IH]; cbn; [reflexivity|]. rewrite app_length, IH. unfold len. lia.
Qed.

Lemma sizer_spec ps : sizer ps = len (wire ps).
Proof.
  unfold sizer. assert (H : forall n, fold_left sizer_put ps n = n + len (wire ps)).
  { induction ps as [|p ps IH]; intros n; cbn [fold_left].
    - cbn. lia.
    - rewrite IH, sizer_put_spec. unfold wire. cbn [map concat]. rewrite len_app. lia. }
  rewrite H. lia.
Qed.
