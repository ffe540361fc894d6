From Coq Require Import NArith ZArith List Lia Bool.
From Coq Require Import Init.Byte Strings.Byte.
From Coq Require Import ZifyBool ZifyNat ZifyN.
From Verif.Model Require Import Base Coding Message Stream JsWire.
From Verif.Spec Require Import CodingSpec MessageSpec StreamSpec JsWireSpec.
From Verif.Proofs Require Import BaseP CodingP MessageP StreamP.
Import ListNotations.
Open Scope N_scope.

(** ** What a JavaScript reader makes of a byte string *)
Inductive fres (A : Type) := FOk (a : A) (rest : bytes) | FThrow | FShort | FFuel.
Arguments FOk {A} a rest.
Arguments FThrow {A}.
Arguments FShort {A}.
Arguments FFuel {A}.
Definition fl A := bytes -> fres A.
Definition fret {A} (a : A) : fl A := fun bs => FOk a bs.
Definition fthrow {A} : fl A := fun _ => FThrow.
Definition fbind {A B} (m : fl A) (f : A -> fl B) : fl B := fun bs =>
  match m bs with FOk a r => f a r | FThrow => FThrow | FShort => FShort | FFuel => FFuel end.

Definition stuck {A} (e : ending) : jout A := match e with Fin | Reset => JThrow | Open => JWait end.
Definition jout_of {A} (e : ending) (x : fres A) : jout A :=
  match x with FOk a _ => JOk a | FThrow => JThrow | FShort => stuck e | FFuel => JFuel end.

(** [jd] computes [f] of the bytes to come. *)
Definition den {A} (jd : js A) (f : fl A) : Prop := forall r,
  exists r', jd r = (jout_of (ends r) (f (content r)), r') /\ ends r' = ends r /\
    (no_empty_piece r -> no_empty_piece r') /\
    match f (content r) with FOk _ rest => content r' = rest | _ => True end.

Lemma den_ret {A} (a : A) : den (jret a) (fret a).
Proof. intros r. exists r. repeat split; auto. Qed.
Lemma den_throw {A} : den (A := A) jthrow fthrow.
Proof. intros r. exists r. repeat split; auto. Qed.
Lemma den_bind {A B} (m : js A) (f : A -> js B) m' f' : den m m' -> (forall a, den (f a) (f' a)) ->
  den (jbind m f) (fbind m' f').
Proof.
  intros Dm Df r. destruct (Dm r) as (r1 & E1 & N1 & P1 & C1). unfold jbind, fbind. rewrite E1.
  destruct (m' (content r)) as [a rest| | |] eqn:E; cbn [jout_of].
  - destruct (Df a r1) as (r2 & E2 & N2 & P2 & C2). rewrite C1, N1 in *. exists r2.
    rewrite E2. repeat split; auto.
  - exists r1. repeat split; auto.
  - exists r1. unfold stuck. destruct (ends r); repeat split; auto.
  - exists r1. repeat split; auto.
Qed.
Lemma den_ext {A} (m : js A) f g : (forall bs, f bs = g bs) -> den m f -> den m g.
Proof. intros H D r. rewrite <- H. apply D. Qed.
Lemma den_ext' {A} (m n : js A) f : (forall r, m r = n r) -> den n f -> den m f.
Proof. intros H D r. rewrite H. apply D. Qed.

Lemma fill_spec n : forall cs buf e, exists x r', fill_to n buf cs e = (x, r') /\ ends r' = e /\
  content r' = buf ++ concat cs /\ (Forall (fun c => c <> []) cs -> no_empty_piece r') /\
  (n <= len (buf ++ concat cs) -> x = JOk tt /\ n <= len (rd_buf r')) /\
  (len (buf ++ concat cs) < n -> x = stuck e).
Proof.
  induction cs as [|c cs IH]; intros buf e; cbn [fill_to concat].
  - rewrite app_nil_r. destruct (len buf <? n) eqn:L.
    + eexists _, _. split; [reflexivity|]. cbn. rewrite app_nil_r. repeat split; auto; try lia.
    + eexists _, _. split; [reflexivity|]. cbn. rewrite app_nil_r. repeat split; auto; lia.
  - destruct (len buf <? n) eqn:L.
    + destruct (IH (buf ++ c) e) as (x & r' & E & H1 & H2 & H3 & H4). rewrite <- app_assoc in *.
      exists x, r'. repeat split; try tauto. intros F. inversion F; auto.
    + eexists _, _. split; [reflexivity|]. cbn. repeat split; auto; try (rewrite len_app in *; lia).
Qed.

(** A fill followed by a slice. *)
Definition f_take (n : N) : fl bytes := fun bs => if len bs <? n then FShort else FOk (take n bs) (drop n bs).
Lemma den_take n : den (jbind (j_fill n) (fun _ => j_slice n)) (f_take n).
Proof.
  intros [buf [cs e]]. unfold jbind, j_fill, f_take, content, ends. cbn [rd_buf rd_stream rc_chunks rc_end].
  destruct (fill_spec n cs buf e) as (x & r' & E & N1 & C1 & P1 & Hok & Hsh). rewrite E.
  destruct (len (buf ++ concat cs) <? n) eqn:L; cbn [jout_of].
  - rewrite Hsh by lia. exists r'. unfold stuck. destruct e; repeat split; auto.
  - destruct Hok as [-> Hl]; [lia|]. unfold j_slice. eexists. split; [|split; [|split]].
    + f_equal. f_equal. rewrite <- C1. unfold content. rewrite take_app_l by exact Hl. reflexivity.
    + exact N1.
    + exact P1.
    + cbn [rd_buf rd_stream]. rewrite <- C1. unfold content. rewrite drop_app_l by exact Hl. reflexivity.
Qed.

Definition f_read (n : N) : fl bytes := if n =? 0 then fret [] else f_take n.
Lemma den_read n : den (j_read n) (f_read n).
Proof. unfold j_read, f_read. destruct (n =? 0); [apply den_ret|apply den_take]. Qed.
Lemma f_read_app n a b : len a = n -> f_read n (a ++ b) = FOk a b.
Proof.
  intros <-. unfold f_read, f_take, fret. destruct (len a =? 0) eqn:E.
  - destruct a; [reflexivity|cbn in E; lia].
  - rewrite len_app. destruct (len a + len b <? len a) eqn:F; [lia|].
    rewrite take_app_l, take_all, drop_len_app by lia. reflexivity.
Qed.

Definition f_u8 : fl N := fun bs => match bs with b :: r => FOk (n_of b) r | [] => FShort end.
Lemma den_u8 : den j_u8 f_u8.
Proof.
  unfold j_u8. apply den_ext' with (n := jbind (jbind (j_fill 1) (fun _ => j_slice 1))
    (fun s => jret (match s with b :: _ => n_of b | [] => 0 end))).
  { intros r. unfold jbind. destruct (j_fill 1 r) as [[]]; reflexivity. }
  eapply den_ext; [|apply den_bind; [apply den_take|intros s; apply den_ret]].
  intros [|b l]; [reflexivity|]. unfold fbind, f_take. rewrite len_cons'.
  destruct (1 + len l <? 1) eqn:E; [lia|].
  replace (take 1 (b :: l)) with [b]; [replace (drop 1 (b :: l)) with l; [reflexivity|]|].
  - unfold drop. rewrite len_cons'. replace (N.min 1 (1 + len l)) with 1 by lia. reflexivity.
  - unfold take. rewrite len_cons'. replace (N.min 1 (1 + len l)) with 1 by lia. reflexivity.
Qed.

Lemma size_bits b : N.shiftr (N.land (n_of b) 0xc0) 6 = n_of b / 64.
Proof. destruct b; reflexivity. Qed.

Lemma size_spec r : exists x r', j_size r = (x, r') /\ ends r' = ends r /\ content r' = content r /\
  (no_empty_piece r -> no_empty_piece r') /\
  match content r with
  | [] => x = stuck (ends r)
  | b :: _ => x = JOk (n_of b / 64) /\ j_fill 1 r' = (JOk tt, r')
  end.
Proof.
  destruct r as [buf [cs e]]. unfold j_size, jbind, j_fill, content, ends. cbn [rd_buf rd_stream rc_chunks rc_end].
  destruct (fill_spec 1 cs buf e) as (x & r' & E & N1 & C1 & P1 & Hok & Hsh). rewrite E.
  destruct (buf ++ concat cs) as [|b l] eqn:EC.
  - rewrite Hsh by (cbn; lia). exists (stuck e), r'. unfold stuck. destruct e; repeat split; auto.
  - destruct Hok as [-> Hl]; [rewrite len_cons'; lia|]. eexists _, r'. split; [reflexivity|].
    destruct r' as [buf' [cs' e']]. cbn [rd_buf rd_stream rc_chunks rc_end] in *.
    destruct buf' as [|b' l']; [cbn in Hl; lia|]. cbn in N1, C1. injection C1 as -> C1.
    repeat split; auto.
    + cbn. congruence.
    + rewrite size_bits. reflexivity.
    + cbn [fill_to]. destruct cs'; cbn [fill_to]; (destruct (len (b :: l') <? 1) eqn:F; [lia|reflexivity]).
Qed.

Definition f_u62 : fl N := fun bs =>
  match u64_decode bs with DOk v r => FOk v r | DErr _ => FShort | DFuel => FFuel end.

Lemma land_form k v p : k < 4 -> varint_form k v p -> N.land (be_value p) (N.ones (8 * 2 ^ k - 2)) = v.
Proof.
  intros Hk (Hl & Hv & Hb). rewrite be_value_spec, Hb, N.land_ones.
  rewrite N.add_comm, N.mod_add by (apply N.pow_nonzero; lia). apply N.mod_small, Hv.
Qed.
Lemma int16_form v p : varint_form 1 v p -> Z.to_N (Z.land (get_int16 p) 0x3fff) = v.
Proof.
  intros (Hl & Hv & Hb). unfold get_int16. rewrite be_value_spec, Hb.
  change (8 * 2 ^ 1 - 2) with 14 in *. change (2 ^ 14) with 16384 in *.
  destruct (Z.of_N (1 * 16384 + v) <? 0x8000)%Z eqn:L; [|lia].
  change 0x3fff%Z with (Z.ones 14). rewrite Z.land_ones by lia. change (2 ^ 14)%Z with 16384%Z.
  rewrite N2Z.inj_add, N2Z.inj_mul. cbn [Z.of_N].
  replace (Z.mul 1 16384 + Z.of_N v)%Z with (Z.of_N v + 1 * 16384)%Z by lia.
  rewrite Z.mod_add by lia. rewrite Z.mod_small by lia. apply N2Z.id.
Qed.

(** The part of an integer after its size is known: all at once. *)
Definition finish_u62 (k : N) : fl N := fun bs =>
  if len bs <? 2 ^ k then FShort
  else FOk (be_value (take (2 ^ k) bs) - k * 2 ^ (8 * 2 ^ k - 2)) (drop (2 ^ k) bs).

Lemma u62_flat bs : f_u62 bs = match bs with [] => FShort | b :: _ => finish_u62 (n_of b / 64) bs end.
Proof.
  unfold f_u62, u64_decode. destruct bs as [|b l]; [reflexivity|]. rewrite varint_decode_cons. cbv zeta.
  unfold finish_u62. rewrite len_cons'. set (k := n_of b / 64).
  assert (Hp : 1 <= 2 ^ k) by (apply N.lt_pred_le, N.neq_0_lt_0, N.pow_nonzero; lia).
  destruct (len l <? 2 ^ k - 1) eqn:E; destruct (1 + len l <? 2 ^ k) eqn:F; try lia; [reflexivity|].
  assert (T : take (2 ^ k) (b :: l) = b :: firstn (N.to_nat (2 ^ k - 1)) l).
  { unfold take. rewrite len_cons'. replace (N.min (2 ^ k) (1 + len l)) with (2 ^ k) by lia.
    replace (N.to_nat (2 ^ k)) with (S (N.to_nat (2 ^ k - 1))) by lia. reflexivity. }
  assert (D : drop (2 ^ k) (b :: l) = skipn (N.to_nat (2 ^ k - 1)) l).
  { unfold drop. rewrite len_cons'. replace (N.min (2 ^ k) (1 + len l)) with (2 ^ k) by lia.
    replace (N.to_nat (2 ^ k)) with (S (N.to_nat (2 ^ k - 1))) by lia. reflexivity. }
  rewrite T, D. reflexivity.
Qed.

Lemma take_drop_split k (bs : bytes) : len bs <? k = false -> bs = take k bs ++ drop k bs /\ len (take k bs) = k.
Proof. intros H. split; [symmetry; apply take_drop|]. rewrite len_take. lia. Qed.

(** The value is what masking the two front bits off leaves. *)
Lemma finish_form b l k : k = n_of b / 64 -> len (b :: l) <? 2 ^ k = false ->
  varint_form k (be_value (take (2 ^ k) (b :: l)) - k * 2 ^ (8 * 2 ^ k - 2)) (take (2 ^ k) (b :: l)).
Proof.
  intros -> L. assert (Hk : n_of b / 64 < 4) by (pose proof (n_of_lt b); lia).
  pose proof (u62_flat (b :: l)) as U. cbv iota in U. unfold finish_u62 in U. rewrite L in U. unfold f_u62, u64_decode in U.
  destruct (varint_decode (b :: l)) as [v r| |] eqn:E; try discriminate.
  pose proof (f_equal (fun x => match x with FOk a _ => a | _ => 0 end) U) as U1. cbv beta iota in U1. clear U. rewrite <- U1.
  apply varint_decode_sound in E. destruct E as (p & Ep & k & Hk' & F).
  destruct p as [|b0 p]; [destruct F as (F & _); cbn in F; pose proof (N.pow_nonzero 2 k); lia|].
  pose proof Ep as Ep'. cbn [app] in Ep'. injection Ep' as <- _.
  rewrite <- (varint_form_first _ _ _ _ Hk' F). rewrite Ep.
  assert (len (b :: p) = 2 ^ k) as Lp by (destruct F as (F & _); exact F).
  rewrite <- Lp, take_app_l, take_all by lia. exact F.
Qed.

Lemma den_u62 : den j_u62 f_u62.
Proof.
  intros r. rewrite u62_flat. unfold j_u62, jbind at 1.
  destruct (size_spec r) as (x & r1 & E1 & N1 & C1 & P1 & X). rewrite E1.
  destruct (content r) as [|b l] eqn:EC.
  { subst x. exists r1. unfold stuck. destruct (ends r); repeat split; auto. }
  destruct X as [-> F1]. assert (Hk : n_of b / 64 < 4) by (pose proof (n_of_lt b); lia).
  assert (K : forall k (g : bytes -> N), n_of b / 64 = k ->
     (forall v p, varint_form k v p -> g p = v) ->
     exists r', jbind (j_fill (2 ^ k)) (fun _ => jbind (j_slice (2 ^ k)) (fun s => jret (g s))) r1 =
       (jout_of (ends r) (finish_u62 k (b :: l)), r') /\ ends r' = ends r /\ (no_empty_piece r -> no_empty_piece r') /\
       match finish_u62 k (b :: l) with FOk _ rest => content r' = rest | _ => True end).
  { intros k g Ek Hg. destruct (den_take (2 ^ k) r1) as (r2 & E2 & N2 & P2 & C2). rewrite C1, N1 in *.
    unfold f_take in *. unfold finish_u62. destruct (len (b :: l) <? 2 ^ k) eqn:L.
    - exists r2. unfold jbind in *. destruct (j_fill (2 ^ k) r1) as [y r3]. destruct y; cbn [j_slice] in E2.
      + unfold j_slice in E2. unfold stuck in E2. cbn [jout_of] in E2. unfold stuck in E2. destruct (ends r); discriminate.
      + injection E2 as E2 ->. cbn [jout_of] in *. unfold stuck in *. destruct (ends r); try discriminate; repeat split; auto.
      + injection E2 as E2 ->. cbn [jout_of] in *. unfold stuck in *. destruct (ends r); try discriminate; repeat split; auto.
      + cbn [jout_of] in E2. unfold stuck in E2. destruct (ends r); discriminate.
    - exists r2. unfold jbind in *. destruct (j_fill (2 ^ k) r1) as [y r3]. cbn [jout_of] in *.
      destruct y; try discriminate. unfold j_slice in *. injection E2 as E2 ->. rewrite E2. cbn [jret]. unfold jret.
      rewrite (Hg (be_value (take (2 ^ k) (b :: l)) - k * 2 ^ (8 * 2 ^ k - 2))).
      + repeat split; auto.
      + apply finish_form; auto. }
  assert (H : n_of b / 64 = 0 \/ n_of b / 64 = 1 \/ n_of b / 64 = 2 \/ n_of b / 64 = 3) by lia.
  destruct H as [H|[H|[H|H]]]; rewrite H; cbn [N.eqb Pos.eqb].
  - specialize (K 0 (fun s => N.land (be_value s) 0x3f) H). change (2 ^ 0) with 1 in K.
    unfold jbind at 1 in K. rewrite F1 in K. apply K. intros v p F. apply (land_form 0 v p); [lia|exact F].
  - apply (K 1 (fun s => Z.to_N (Z.land (get_int16 s) 0x3fff)) H). intros v p F. apply int16_form, F.
  - apply (K 2 (fun s => N.land (be_value s) 0x3fffffff) H). intros v p F. apply (land_form 2 v p); [lia|exact F].
  - apply (K 3 (fun s => N.land (be_value s) 0x3fffffffffffffff) H). intros v p F. apply (land_form 3 v p); [lia|exact F].
Qed.

Definition f_u53 : fl N := fbind f_u62 (fun v => if max_u53 <? v then fthrow else fret v).
Lemma den_u53 : den j_u53 f_u53.
Proof. apply den_bind; [apply den_u62|]. intros v. destruct (_ <? _); [apply den_throw|apply den_ret]. Qed.

Section Text.
Context (lossy : bytes -> bytes).

Definition f_string : fl bytes := fbind f_u53 (fun n => fbind (f_read n) (fun b => fret (text_decode lossy b))).
Lemma den_string : den (j_string lossy) f_string.
Proof.
  apply den_bind; [apply den_u53|]. intros n. apply den_bind; [apply den_read|]. intros b. apply den_ret.
Qed.
Definition f_announce : fl (bytes * bool) :=
  fbind f_u53 (fun a => fbind f_string (fun suffix => fret (suffix, a =? 1))).
Lemma den_announce : den (j_announce lossy) f_announce.
Proof.
  apply den_bind; [apply den_u53|]. intros n. apply den_bind; [apply den_string|]. intros b. apply den_ret.
Qed.
Definition f_subscribe : fl jsubscribe :=
  fbind f_u62 (fun id => fbind f_string (fun b => fbind f_string (fun t => fbind f_u53 (fun p =>
  fret (JSubscribe id b t p))))).
Lemma den_subscribe : den (j_subscribe lossy) f_subscribe.
Proof.
  apply den_bind; [apply den_u62|]. intros n. apply den_bind; [apply den_string|]. intros b.
  apply den_bind; [apply den_string|]. intros t. apply den_bind; [apply den_u53|]. intros p. apply den_ret.
Qed.
Definition f_group : fl group_header := fbind f_u62 (fun s => fbind f_u53 (fun q => fret (GroupHeader s q))).
Lemma den_group : den j_group f_group.
Proof. apply den_bind; [apply den_u62|]. intros n. apply den_bind; [apply den_u53|]. intros b. apply den_ret. Qed.
Definition f_frame : fl bytes := fbind f_u53 f_read.
Lemma den_frame : den j_frame f_frame.
Proof. apply den_bind; [apply den_u53|]. apply den_read. Qed.

Fixpoint f_ext_loop (fuel : nat) (n : N) (m : extensions) : fl extensions :=
  match n with
  | 0 => fret m
  | _ =>
    match fuel with
    | O => fun _ => FFuel
    | S fuel =>
      fbind f_u62 (fun id => fbind f_u53 (fun size => fbind (f_read size) (fun value =>
      if ext_mem id m then fthrow else f_ext_loop fuel (N.pred n) (m ++ [(id, value)]))))
    end
  end.
Lemma den_ext_loop : forall fuel n m, den (j_ext_loop fuel n m) (f_ext_loop fuel n m).
Proof.
  induction fuel as [|fuel IH]; intros n m.
  - destruct n; [apply den_ret|]. intros r. exists r. repeat split; auto.
  - destruct n as [|n]; [apply den_ret|].
    cbn [j_ext_loop f_ext_loop]. apply den_bind; [apply den_u62|]. intros id. apply den_bind; [apply den_u53|]. intros size.
    apply den_bind; [apply den_read|]. intros value. destruct (ext_mem id m); [apply den_throw|apply IH].
Qed.
(** A loop whose fuel is taken from what can still come. *)
Lemma den_left {A} (j : nat -> js A) (f : nat -> fl A) : (forall n, den (j n) (f n)) ->
  den (fun r => j (S (j_left r)) r) (fun bs => f (S (length bs)) bs).
Proof.
  intros D r. destruct (D (S (j_left r)) r) as (r' & H). exists r'.
  replace (length (content r)) with (j_left r); [exact H|]. unfold j_left, content. rewrite app_length. reflexivity.
Qed.
Definition f_extensions : fl extensions := fbind f_u53 (fun n bs => f_ext_loop (S (length bs)) n [] bs).
Lemma den_extensions : den j_extensions f_extensions.
Proof.
  apply den_bind; [apply den_u53|]. intros n.
  apply (den_left (fun f => j_ext_loop f n []) (fun f => f_ext_loop f n [])). intros f. apply den_ext_loop.
Qed.
Fixpoint f_versions_loop (fuel : nat) (n : N) (vs : list N) : fl (list N) :=
  match n with
  | 0 => fret vs
  | _ =>
    match fuel with
    | O => fun _ => FFuel
    | S fuel => fbind f_u53 (fun v => f_versions_loop fuel (N.pred n) (vs ++ [v]))
    end
  end.
Lemma den_versions_loop : forall fuel n m, den (j_versions_loop fuel n m) (f_versions_loop fuel n m).
Proof.
  induction fuel as [|fuel IH]; intros n m.
  - destruct n; [apply den_ret|]. intros r. exists r. repeat split; auto.
  - destruct n as [|n]; [apply den_ret|].
    cbn [j_versions_loop f_versions_loop]. apply den_bind; [apply den_u53|]. intros id. apply IH.
Qed.
Definition f_versions : fl (list N) := fbind f_u53 (fun n bs => f_versions_loop (S (length bs)) n [] bs).
Lemma den_versions : den j_versions f_versions.
Proof.
  apply den_bind; [apply den_u53|]. intros n.
  apply (den_left (fun f => j_versions_loop f n []) (fun f => f_versions_loop f n [])). intros f. apply den_versions_loop.
Qed.
Definition f_client : fl client_setup := fbind f_versions (fun vs => fbind f_extensions (fun x => fret (ClientSetup vs x))).
Lemma den_client : den j_client f_client.
Proof. apply den_bind; [apply den_versions|]. intros v. apply den_bind; [apply den_extensions|]. intros x. apply den_ret. Qed.
Definition f_server : fl server_setup := fbind f_u53 (fun v => fbind f_extensions (fun x => fret (ServerSetup v x))).
Lemma den_server : den j_server f_server.
Proof. apply den_bind; [apply den_u53|]. intros v. apply den_bind; [apply den_extensions|]. intros x. apply den_ret. Qed.
Definition f_accept_bi : fl jbidi :=
  fbind f_u8 (fun t =>
  if t =? 0 then fbind f_client (fun m => fret (BiClient m))
  else if t =? 1 then fbind f_string (fun m => fret (BiInterest m))
  else if t =? 2 then fbind f_subscribe (fun m => fret (BiSubscribe m))
  else fthrow).
Lemma den_accept_bi : den (j_accept_bi lossy) f_accept_bi.
Proof.
  apply den_bind; [apply den_u8|]. intros t. destruct (t =? 0); [|destruct (t =? 1); [|destruct (t =? 2)]].
  - apply den_bind; [apply den_client|]. intros m. apply den_ret.
  - apply den_bind; [apply den_string|]. intros m. apply den_ret.
  - apply den_bind; [apply den_subscribe|]. intros m. apply den_ret.
  - apply den_throw.
Qed.
Definition f_accept_uni : fl group_header := fbind f_u8 (fun t => if t =? 0 then f_group else fthrow).
Lemma den_accept_uni : den j_accept_uni f_accept_uni.
Proof. apply den_bind; [apply den_u8|]. intros t. destruct (t =? 0); [apply den_group|apply den_throw]. Qed.
Definition f_connect : fl unit := fbind f_server (fun m => if ss_version m =? js_version then fret tt else fthrow).
Lemma den_connect : den j_connect f_connect.
Proof. apply den_bind; [apply den_server|]. intros m. destruct (_ =? _); [apply den_ret|apply den_throw]. Qed.

(** ** Fuel *)
Definition short_of (b : bytes) (n : nat) : Prop := (length b <= n)%nat.
Definition fed {A} (f : fl A) : Prop := forall bs, f bs <> FFuel /\ forall a r, f bs = FOk a r -> (length r <= length bs)%nat.
Definition feeds {A} (f : fl A) : Prop := forall bs a r, f bs = FOk a r -> (length r < length bs)%nat.
Lemma fed_ret {A} (a : A) : fed (fret a).
Proof. intros bs. split; [discriminate|]. intros x r [= _ <-]. lia. Qed.
Lemma fed_throw {A} : fed (A := A) fthrow.
Proof. intros bs. split; discriminate. Qed.
Lemma fed_bind {A B} (m : fl A) (f : A -> fl B) : fed m -> (forall a, fed (f a)) -> fed (fbind m f).
Proof.
  intros M F bs. unfold fbind. destruct (M bs) as [M1 M2]. destruct (m bs) as [a r| | |] eqn:E; try (split; discriminate); [|congruence].
  specialize (M2 a r eq_refl). destruct (F a r) as [F1 F2]. split; [exact F1|]. intros b r' H. apply F2 in H. lia.
Qed.
Lemma feeds_bind {A B} (m : fl A) (f : A -> fl B) : feeds m -> (forall a, fed (f a)) -> feeds (fbind m f).
Proof.
  intros M F bs b r. unfold fbind. destruct (m bs) as [a r1| | |] eqn:E; try discriminate.
  apply M in E. intros H. apply F in H. lia.
Qed.
Lemma fed_take n : fed (f_take n).
Proof.
  intros bs. unfold f_take. destruct (_ <? _); [split; discriminate|]. split; [discriminate|].
  intros a r [= _ <-]. pose proof (len_drop n bs). unfold len in *. lia.
Qed.
Lemma fed_read n : fed (f_read n).
Proof. unfold f_read. destruct (_ =? _); [apply fed_ret|apply fed_take]. Qed.
Lemma feeds_u62 : feeds f_u62.
Proof.
  intros bs a r. unfold f_u62. destruct (u64_decode bs) as [v r'| |] eqn:E; try discriminate. intros [= <- <-].
  apply eats_u64 in E. exact E.
Qed.
Lemma fed_u62 : fed f_u62.
Proof.
  intros bs. split.
  - unfold f_u62. pose proof (g_total _ good_u64 bs). destruct (u64_decode bs); congruence.
  - intros a r H. apply feeds_u62 in H. lia.
Qed.
Lemma fed_u53 : fed f_u53.
Proof. apply fed_bind; [apply fed_u62|]. intros v. destruct (_ <? _); [apply fed_throw|apply fed_ret]. Qed.
Lemma feeds_u53 : feeds f_u53.
Proof. apply feeds_bind; [apply feeds_u62|]. intros v. destruct (_ <? _); [apply fed_throw|apply fed_ret]. Qed.
Lemma fed_u8 : fed f_u8.
Proof. intros [|b l]; cbn; split; try discriminate. intros a r [= _ <-]. lia. Qed.
Lemma fed_string : fed f_string.
Proof. apply fed_bind; [apply fed_u53|]. intros n. apply fed_bind; [apply fed_read|]. intros b. apply fed_ret. Qed.
Definition fine {A} (n : nat) (x : fres A) : Prop := x <> FFuel /\ forall a r, x = FOk a r -> (length r <= n)%nat.
Lemma fine_bind {A B} n (m : fl A) (f : A -> fl B) bs : m bs <> FFuel ->
  (forall a r, m bs = FOk a r -> fine n (f a r)) -> fine n (fbind m f bs).
Proof. intros M F. unfold fbind. destruct (m bs) as [a r| | |]; [apply F; reflexivity|split; discriminate|split; discriminate|congruence]. Qed.
Lemma fine_le {A} n n' (x : fres A) : fine n x -> (n <= n')%nat -> fine n' x.
Proof. intros [H1 H2] L. split; [exact H1|]. intros a r H. apply H2 in H. lia. Qed.
Lemma ext_loop_fed : forall fuel n m bs, (length bs < fuel)%nat -> fine (length bs) (f_ext_loop fuel n m bs).
Proof.
  induction fuel as [|fuel IH]; intros n m bs L; [lia|]. destruct n as [|n]; [apply fed_ret|].
  cbn [f_ext_loop]. apply fine_bind; [apply fed_u62|]. intros id r1 E1. apply feeds_u62 in E1.
  apply fine_bind; [apply fed_u53|]. intros size r2 E2. apply fed_u53 in E2.
  apply fine_bind; [apply fed_read|]. intros value r3 E3. apply fed_read in E3.
  destruct (ext_mem id m); [split; discriminate|]. eapply fine_le; [apply IH; lia|lia].
Qed.
Lemma fed_extensions : fed f_extensions.
Proof. apply fed_bind; [apply fed_u53|]. intros n bs. apply ext_loop_fed. lia. Qed.
Lemma versions_loop_fed : forall fuel n m bs, (length bs < fuel)%nat -> fine (length bs) (f_versions_loop fuel n m bs).
Proof.
  induction fuel as [|fuel IH]; intros n m bs L; [lia|]. destruct n as [|n]; [apply fed_ret|].
  cbn [f_versions_loop]. apply fine_bind; [apply fed_u53|]. intros id r1 E1. apply feeds_u53 in E1.
  eapply fine_le; [apply IH; lia|lia].
Qed.
Lemma fed_versions : fed f_versions.
Proof. apply fed_bind; [apply fed_u53|]. intros n bs. apply versions_loop_fed. lia. Qed.
Lemma fed_client : fed f_client.
Proof. apply fed_bind; [apply fed_versions|]. intros v. apply fed_bind; [apply fed_extensions|]. intros x. apply fed_ret. Qed.
Lemma fed_server : fed f_server.
Proof. apply fed_bind; [apply fed_u53|]. intros v. apply fed_bind; [apply fed_extensions|]. intros x. apply fed_ret. Qed.
Lemma fed_subscribe : fed f_subscribe.
Proof.
  apply fed_bind; [apply fed_u62|]. intros n. apply fed_bind; [apply fed_string|]. intros b.
  apply fed_bind; [apply fed_string|]. intros t. apply fed_bind; [apply fed_u53|]. intros p. apply fed_ret.
Qed.
Lemma fed_announce : fed f_announce.
Proof. apply fed_bind; [apply fed_u53|]. intros v. apply fed_bind; [apply fed_string|]. intros x. apply fed_ret. Qed.
Lemma fed_group : fed f_group.
Proof. apply fed_bind; [apply fed_u62|]. intros v. apply fed_bind; [apply fed_u53|]. intros x. apply fed_ret. Qed.
Lemma fed_frame : fed f_frame.
Proof. apply fed_bind; [apply fed_u53|]. apply fed_read. Qed.
Lemma fed_accept_bi : fed f_accept_bi.
Proof.
  apply fed_bind; [apply fed_u8|]. intros t. destruct (t =? 0); [|destruct (t =? 1); [|destruct (t =? 2)]].
  - apply fed_bind; [apply fed_client|]. intros m. apply fed_ret.
  - apply fed_bind; [apply fed_string|]. intros m. apply fed_ret.
  - apply fed_bind; [apply fed_subscribe|]. intros m. apply fed_ret.
  - apply fed_throw.
Qed.
Lemma fed_accept_uni : fed f_accept_uni.
Proof. apply fed_bind; [apply fed_u8|]. intros t. destruct (t =? 0); [apply fed_group|apply fed_throw]. Qed.
Lemma fed_connect : fed f_connect.
Proof. apply fed_bind; [apply fed_server|]. intros m. destruct (_ =? _); [apply fed_ret|apply fed_throw]. Qed.

Lemma cut {A} (jd : js A) f : den jd f -> fed f -> cut_anyhow jd.
Proof.
  intros D F r1 r2 [C E]. destruct (D r1) as (x1 & E1 & N1 & _ & R1). destruct (D r2) as (x2 & E2 & N2 & _ & R2).
  rewrite E1, E2. rewrite C, E in *. cbn [fst snd]. destruct (F (content r2)) as [T _].
  split; [reflexivity|]. destruct (f (content r2)) as [a rest| | |]; cbn [jout_of].
  - split; [discriminate|]. intros a' _. split; congruence.
  - split; discriminate.
  - unfold stuck. destruct (ends r2); split; discriminate.
  - congruence.
Qed.

Lemma cuts : cut_anyhow (j_accept_bi lossy) /\ cut_anyhow j_accept_uni /\ cut_anyhow j_connect /\
  cut_anyhow (j_announce lossy) /\ cut_anyhow j_subscribe_ok /\ cut_anyhow j_update /\ cut_anyhow j_info /\ cut_anyhow j_frame.
Proof.
  split; [exact (cut _ _ den_accept_bi fed_accept_bi)|]. split; [exact (cut _ _ den_accept_uni fed_accept_uni)|].
  split; [exact (cut _ _ den_connect fed_connect)|]. split; [exact (cut _ _ den_announce fed_announce)|].
  split; [exact (cut _ _ den_u53 fed_u53)|]. split; [exact (cut _ _ den_u53 fed_u53)|]. split; [exact (cut _ _ den_u53 fed_u53)|].
  exact (cut _ _ den_frame fed_frame).
Qed.

End Text.
