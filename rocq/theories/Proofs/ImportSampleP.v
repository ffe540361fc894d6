(** The samples of a fragment: exact ranges and times, and when nothing panics. *)
From Coq Require Import NArith ZArith Arith List Lia Bool.
From Coq Require Import Init.Byte Strings.Byte.
From Verif.Proofs Require Import CodingP.
From Verif.Model Require Import Base Coding Media Import.
From Verif.Spec Require Import ImportSpec.
Import ListNotations.
Open Scope N_scope.

Lemma filter_find {A} (p : A -> bool) l :
  find p l = match filter p l with [] => None | x :: _ => Some x end.
Proof. induction l as [|a l IH]; cbn; [reflexivity|]. destruct (p a); [reflexivity|exact IH]. Qed.

Lemma pick3 a b c d : (match c with Some n => n | None => 0 end = d) ->
  opt_or a (opt_or b d) = pick [a; b; c].
Proof. intros <-. destruct a, b, c; reflexivity. Qed.

Lemma size_same v tf e : sample_size (trex_of v (tf_id tf)) tf e = size_of v tf e.
Proof.
  apply pick3. unfold trex_of, default_of. destruct (mv_mvex v) as [l|]; [|reflexivity].
  rewrite filter_find. destruct (filter _ l); reflexivity.
Qed.
Lemma dur_same v tf e : sample_dur (trex_of v (tf_id tf)) tf e = dur_of v tf e.
Proof.
  apply pick3. unfold trex_of, default_of. destruct (mv_mvex v) as [l|]; [|reflexivity].
  rewrite filter_find. destruct (filter _ l); reflexivity.
Qed.
Lemma flags_same v tf e : sample_flags (trex_of v (tf_id tf)) tf e = flags_of v tf e.
Proof.
  apply pick3. unfold trex_of, default_of. destruct (mv_mvex v) as [l|]; [|reflexivity].
  rewrite filter_find. destruct (filter _ l); reflexivity.
Qed.

(** ** Arithmetic *)
Lemma uadd_debug w a b x : uadd Debug w a b = Val x -> x = a + b /\ a + b < 2 ^ w.
Proof.
  unfold uadd, uwrap. destruct (N.ltb_spec (a + b) (2 ^ w)); intro E; [|discriminate].
  injection E as <-. auto.
Qed.
Lemma uadd_fits m w a b : a + b < 2 ^ w -> uadd m w a b = Val (a + b).
Proof. intro H. unfold uadd, uwrap. apply N.ltb_lt in H. rewrite H. reflexivity. Qed.
Lemma umul_debug w a b x : umul Debug w a b = Val x -> x = a * b /\ a * b < 2 ^ w.
Proof.
  unfold umul, uwrap. destruct (N.ltb_spec (a * b) (2 ^ w)); intro E; [|discriminate].
  injection E as <-. auto.
Qed.
Lemma umul_fits m w a b : a * b < 2 ^ w -> umul m w a b = Val (a * b).
Proof. intro H. unfold umul, uwrap. apply N.ltb_lt in H. rewrite H. reflexivity. Qed.
Lemma usub_debug w a b x : usub Debug w a b = Val x -> b <= a /\ x = a - b.
Proof.
  unfold usub. destruct (N.leb_spec b a); intro E; [|discriminate]. injection E as <-. auto.
Qed.
Lemma usub_fits m w a b : b <= a -> usub m w a b = Val (a - b).
Proof. intro H. unfold usub. apply N.leb_le in H. rewrite H. reflexivity. Qed.

Lemma as_i64_small n : n < 2 ^ 63 -> as_i64 n = Z.of_N n.
Proof. intro H. unfold as_i64. apply N.ltb_lt in H. rewrite H. reflexivity. Qed.
Lemma as_u64_small z : (0 <= z < 2 ^ 64)%Z -> as_u64 z = Z.to_N z.
Proof. intro H. unfold as_u64. rewrite Z.mod_small by exact H. reflexivity. Qed.
Lemma as_u64_neg z : (- 2 ^ 64 <= z < 0)%Z -> as_u64 z = Z.to_N (z + 2 ^ 64).
Proof.
  intro H. unfold as_u64. f_equal. symmetry. apply Z.mod_unique with (q := (-1)%Z); lia.
Qed.

Lemma time_debug scale dts e ts : dts < 2 ^ 63 -> (- 2 ^ 31 <= cts_of e < 2 ^ 31)%Z ->
  sample_time Debug scale dts e = Val ts ->
  0 < scale /\ (0 <= Z.of_N dts + cts_of e)%Z /\
  Z.of_N ts = (1000000 * (Z.of_N dts + cts_of e) / Z.of_N scale * 1000)%Z.
Proof.
  intros Hd Hc. unfold sample_time. fold (cts_of e). rewrite as_i64_small by exact Hd.
  unfold iadd64. set (p := (Z.of_N dts + cts_of e)%Z) in *.
  assert (Hp : (- 2 ^ 31 <= p < 2 ^ 63 + 2 ^ 31)%Z) by (unfold p; lia).
  destruct ((- 2 ^ 63 <=? p) && (p <? 2 ^ 63))%Z eqn:E; [|discriminate].
  destruct (umul Debug 64 1000000 (as_u64 p)) as [x|] eqn:Em; [|discriminate].
  apply umul_debug in Em. destruct Em as [-> Hm].
  destruct (N.eqb_spec scale 0) as [|Hs]; [discriminate|]. intro H.
  assert (Ht : ts = 1000000 * as_u64 p / scale * 1000) by congruence. rewrite Ht. clear H Ht.
  assert (H0 : (0 <= p)%Z).
  { destruct (Z.le_gt_cases 0 p); [assumption|]. exfalso. revert Hm. rewrite as_u64_neg by lia.
    intro Hm. assert (2 ^ 63 <= Z.to_N (p + 2 ^ 64)) by lia. lia. }
  rewrite as_u64_small by lia. split; [lia|]. split; [exact H0|].
  rewrite N2Z.inj_mul, N2Z.inj_div, N2Z.inj_mul, Z2N.id by exact H0. reflexivity.
Qed.

Lemma time_calm m w scale dts e from size : dts < 2 ^ 63 ->
  calm w scale (Z.of_N dts + cts_of e) from size ->
  exists ts, sample_time m scale dts e = Val ts /\
    Z.of_N ts = (1000000 * (Z.of_N dts + cts_of e) / Z.of_N scale * 1000)%Z.
Proof.
  intros Hd (Hs & (H0 & H1) & _). unfold sample_time. fold (cts_of e). rewrite as_i64_small by exact Hd.
  unfold iadd64. set (p := (Z.of_N dts + cts_of e)%Z) in *.
  assert (Hp : ((- 2 ^ 63 <=? p) && (p <? 2 ^ 63))%Z = true).
  { apply andb_true_iff. split; [apply Z.leb_le|apply Z.ltb_lt]; lia. }
  rewrite Hp. rewrite as_u64_small by lia.
  rewrite umul_fits by lia. destruct (N.eqb_spec scale 0) as [|_]; [lia|].
  eexists. split; [reflexivity|].
  rewrite N2Z.inj_mul, N2Z.inj_div, N2Z.inj_mul, Z2N.id by exact H0. reflexivity.
Qed.

Lemma media_header_fits ts : ts / 1000 < 2 ^ 62 -> exists h, media_header ts = Val h.
Proof.
  intro H. unfold media_header. rewrite N.mod_small by lia.
  destruct (u64_encode (ts / 1000)) eqn:E; [eexists; reflexivity|].
  apply u64_encode_panic in E. lia.
Qed.

Lemma slice_fits d a n : a + n <= len d -> slice d a (a + n) = Val (bytes_at d (Z.of_N a) n).
Proof.
  intro H. unfold slice. destruct (N.leb_spec a (a + n)); [|lia]. destruct (N.leb_spec (a + n) (len d)); [|lia].
  cbn [andb]. unfold bytes_at. replace (a + n - a) with n by lia. rewrite <- Z_N_nat, N2Z.id. reflexivity.
Qed.

(** ** Maps *)
Lemma hget_del {A} k k' (h : hmap A) : hget k (hdel k' h) = if k =? k' then None else hget k h.
Proof.
  unfold hget, hdel. induction h as [|[a x] h IH]; cbn [filter find fst].
  - destruct (k =? k'); reflexivity.
  - destruct (N.eqb_spec a k') as [->|Hk]; cbn [negb].
    + rewrite IH. destruct (N.eqb_spec k k') as [->|Hn]; [reflexivity|].
      destruct (N.eqb_spec k' k); [congruence|reflexivity].
    + cbn [find fst]. destruct (N.eqb_spec a k) as [->|Hn]; [|exact IH].
      destruct (N.eqb_spec k k'); [congruence|reflexivity].
Qed.
Lemma hget_put {A} k k' (x : A) h : hget k (hput k' x h) = if k =? k' then Some x else hget k h.
Proof.
  unfold hput. unfold hget at 1. cbn [find fst]. destruct (N.eqb_spec k' k) as [->|Hn].
  - rewrite N.eqb_refl. reflexivity.
  - fold (hget k (hdel k' h)). rewrite hget_del. destruct (N.eqb_spec k k'); [congruence|reflexivity].
Qed.

(** ** One sample, with overflow checks *)
Section Samples.
  Variables (w : N) (v : moov) (k : trak) (t : nat) (tf : traf) (data : bytes).

  Lemma sample_debug e dts off s s' r : dts < 2 ^ 63 -> (- 2 ^ 31 <= cts_of e < 2 ^ 31)%Z ->
    sample Debug w v k t tf data e dts off s = (s', r) -> r <> SStop IPanic ->
    (r = SStop (IErr EInvalidOffset) /\ s' = s /\ len data < off + size_of v tf e) \/
    (exists ts key last, r = SMore (dts + dur_of v tf e) (off + size_of v tf e) /\
       off + size_of v tf e <= len data /\
       Z.of_N ts = (1000000 * (Z.of_N dts + cts_of e) / Z.of_N (tk_scale k) * 1000)%Z /\
       sample_key v k (flags_of v tf e) ts (im_last s) = Val (last, key) /\
       s' = iwith_log (iwith_last s last)
              (im_log s ++ [(t, MFrame ts key (bytes_at data (Z.of_N off) (size_of v tf e)))])).
  Proof.
    intros Hd Hc. unfold sample. rewrite size_same, dur_same, flags_same.
    destruct (sample_time Debug (tk_scale k) dts e) as [ts|] eqn:Et; [|intros E Hr; congruence].
    destruct (time_debug _ _ _ _ Hd Hc Et) as (Hs & Hp & Hts).
    destruct (uadd Debug w off (size_of v tf e)) as [en|] eqn:Ea; [|intros E Hr; congruence].
    destruct (uadd_debug _ _ _ _ Ea) as [-> Hw].
    destruct (N.ltb_spec (len data) (off + size_of v tf e)) as [Hl|Hl].
    { intros E Hr. left. injection E as <- <-. auto. }
    destruct (sample_key v k _ ts (im_last s)) as [[last key]|] eqn:Ek; [|intros E Hr; congruence].
    cbv zeta. rewrite slice_fits by exact Hl.
    destruct (media_header ts); [|intros E Hr; congruence].
    destruct (uadd Debug 64 dts (dur_of v tf e)) as [d|] eqn:Ed; [|intros E Hr; congruence].
    destruct (uadd_debug _ _ _ _ Ed) as [-> _].
    intros E Hr. injection E as <- <-. right. exists ts, key, last. auto.
  Qed.

  Lemma sample_calm m e dts off s : dts + dur_of v tf e < 2 ^ 63 ->
    calm w (tk_scale k) (Z.of_N dts + cts_of e) (Z.of_N off) (size_of v tf e) ->
    (forall ts, Z.of_N ts = (1000000 * (Z.of_N dts + cts_of e) / Z.of_N (tk_scale k) * 1000)%Z ->
       sample_key v k (flags_of v tf e) ts (im_last s) <> Panic) ->
    sample m w v k t tf data e dts off s = (s, SStop (IErr EInvalidOffset)) \/
    exists ts key last, 
       Z.of_N ts = (1000000 * (Z.of_N dts + cts_of e) / Z.of_N (tk_scale k) * 1000)%Z /\
       sample_key v k (flags_of v tf e) ts (im_last s) = Val (last, key) /\
       sample m w v k t tf data e dts off s =
       (iwith_log (iwith_last s last)
          (im_log s ++ [(t, MFrame ts key (bytes_at data (Z.of_N off) (size_of v tf e)))]),
        SMore (dts + dur_of v tf e) (off + size_of v tf e)).
  Proof.
    intros Hd Hcalm Hk. unfold sample. rewrite size_same, dur_same, flags_same.
    assert (Hd' : dts < 2 ^ 63) by lia.
    destruct (time_calm m w _ _ _ _ _ Hd' Hcalm) as (ts & Et & Hts). rewrite Et.
    destruct Hcalm as (Hs & (H0 & H1) & Hv & Hw).
    assert (Hw' : off + size_of v tf e < 2 ^ w).
    { apply N2Z.inj_lt. rewrite N2Z.inj_add, N2Z.inj_pow. exact Hw. }
    rewrite (uadd_fits m w off) by exact Hw'.
    destruct (N.ltb_spec (len data) (off + size_of v tf e)) as [Hl|Hl]; [left; reflexivity|right].
    specialize (Hk ts Hts). destruct (sample_key v k _ ts (im_last s)) as [[last key]|] eqn:Ek; [|congruence].
    cbv zeta. rewrite slice_fits by exact Hl.
    destruct (media_header_fits ts) as [h Eh].
    { apply N2Z.inj_lt. rewrite N2Z.inj_div, Hts. change (Z.of_N 1000) with 1000%Z.
      rewrite Z.div_mul by lia. exact Hv. }
    rewrite Eh. rewrite (uadd_fits m 64 dts) by lia.
    exists ts, key, last. split; [exact Hts|]. split; [exact Ek|reflexivity].
  Qed.
End Samples.

(** ** The list of samples of a run *)
Lemma indexed_cons {A} (a : A) l : indexed (a :: l) = (0%nat, a) :: map (fun p => (S (fst p), snd p)) (indexed l).
Proof.
  unfold indexed. cbn [length seq combine]. f_equal. rewrite <- seq_shift.
  generalize (seq 0 (length l)). induction l as [|b l IH]; intros [|n ns]; cbn; try reflexivity.
  f_equal. apply IH.
Qed.

Definition run_places v tf t scale t0 from es :=
  map (fun p => place_at v tf t scale t0 from es (fst p) (snd p)) (indexed es).

Lemma run_places_cons v tf t scale t0 from e es :
  run_places v tf t scale t0 from (e :: es) =
  Place t (1000000 * (Z.of_N t0 + cts_of e) / Z.of_N scale) from (size_of v tf e) ::
  run_places v tf t scale (t0 + dur_of v tf e) (from + Z.of_N (size_of v tf e)) es.
Proof.
  unfold run_places. rewrite indexed_cons. cbn [map fst snd]. f_equal.
  - unfold place_at, dts_at, before. cbn [firstn map total]. rewrite N.add_0_r, Z.add_0_r. reflexivity.
  - rewrite map_map. apply map_ext. intros [i a]. cbn [fst snd].
    unfold place_at, dts_at, before. cbn [firstn map total]. f_equal; [f_equal; lia|lia].
Qed.

Lemma run_places_length v tf t scale t0 from es :
  length (run_places v tf t scale t0 from es) = length es.
Proof. unfold run_places, indexed. rewrite map_length, combine_length, seq_length. lia. Qed.

(** What a call leaves alone. *)
Definition kept (s s' : imp) : Prop :=
  im_tracks s' = im_tracks s /\ im_moov s' = im_moov s /\ im_moof s' = im_moof s /\
  im_moof_size s' = im_moof_size s /\ im_made s' = im_made s.
Lemma kept_refl s : kept s s.
Proof. unfold kept. auto 6. Qed.
Lemma kept_trans a b c : kept a b -> kept b c -> kept a c.
Proof. unfold kept. intuition congruence. Qed.

Definition stops (data : bytes) (P : list place) (n : nat) (o : iout) : Prop :=
  match o with
  | IOk => n = length P
  | IErr e => e = EInvalidOffset /\ exists p, nth_error P n = Some p /\ ~ inside data p
  | IPanic => False
  end.

Lemma inside_N data t us off n : inside data (Place t us (Z.of_N off) n) <-> off + n <= len data.
Proof. unfold inside, len. cbn [pl_from pl_size]. lia. Qed.

Lemma samples_debug w v k t tf data es : forall dts off s s' o,
  samples Debug w v k t tf data es dts off s = (s', o) -> o <> IPanic ->
  dts + total (map (dur_of v tf) es) < 2 ^ 63 ->
  Forall (fun e => (- 2 ^ 31 <= cts_of e < 2 ^ 31)%Z) es ->
  let P := run_places v tf t (tk_scale k) dts (Z.of_N off) es in
  exists new, im_log s' = im_log s ++ new /\ kept s s' /\
    (length new <= length P)%nat /\
    Forall2 (written_for data) (firstn (length new) P) new /\
    stops data P (length new) o.
Proof.
  induction es as [|e es IH]; intros dts off s s' o E Ho Hd Hc.
  - cbn in E. injection E as <- <-. exists []. rewrite app_nil_r. cbn.
    split; [reflexivity|]. split; [apply kept_refl|]. split; [lia|]. split; constructor.
  - cbn [samples] in E. cbn [map total] in Hd. inversion Hc as [|? ? Hc1 Hc2]; subst.
    destruct (sample Debug w v k t tf data e dts off s) as [s1 r] eqn:Es.
    assert (Hd0 : dts < 2 ^ 63) by lia.
    destruct r as [d1 o1|o1].
    + destruct (sample_debug _ _ _ _ _ _ _ _ _ _ _ _ Hd0 Hc1 Es ltac:(discriminate))
        as [[H _]|(ts & key & last & Hr & Hl & Hts & Hk & ->)]; [discriminate|].
      injection Hr as -> ->.
      assert (Hd2 : dts + dur_of v tf e + total (map (dur_of v tf) es) < 2 ^ 63) by lia.
      destruct (IH _ _ _ _ _ E Ho Hd2 Hc2) as (new & El & Kp & Hn & Hf & Hst).
      cbv zeta in *. rewrite run_places_cons. rewrite N2Z.inj_add in Hn, Hf, Hst.
      exists ((t, MFrame ts key (bytes_at data (Z.of_N off) (size_of v tf e))) :: new).
      cbn [iwith_log iwith_last im_log] in El. rewrite <- app_assoc in El. cbn [app] in El.
      split; [exact El|]. split; [exact Kp|]. cbn [length firstn].
      split; [lia|]. split.
      * constructor; [|exact Hf]. unfold written_for. rewrite inside_N.
        cbn [pl_track pl_from pl_size pl_us fst snd mf_data mf_ts]. auto.
      * destruct o; cbn [stops] in *; [cbn [length]; lia|exact Hst|exact Hst].
    + injection E as <- <-.
      destruct (sample_debug _ _ _ _ _ _ _ _ _ _ _ _ Hd0 Hc1 Es ltac:(congruence))
        as [(H & -> & Hl)|(ts & key & last & Hr & _)]; [|discriminate].
      injection H as ->. exists []. rewrite app_nil_r, run_places_cons. cbn [length firstn stops nth_error].
      split; [reflexivity|]. split; [apply kept_refl|]. split; [lia|]. split; [constructor|].
      split; [reflexivity|]. eexists. split; [reflexivity|]. rewrite inside_N. lia.
Qed.

(** ** A fragment *)
Lemma offset_debug w msize hsize base off o : (forall n, base = Some n -> n < 2 ^ w) ->
  run_offset Debug w msize hsize base off = OVal o ->
  Z.of_N o = run_from msize hsize base off /\
  (forall d, off = Some d -> (Z.of_N msize <= d)%Z).
Proof.
  intros Hb. unfold run_offset, run_from.
  assert (Eb : opt_or base 0 mod 2 ^ w = pick [base]).
  { destruct base as [n|]; cbn [opt_or pick flat_map app]; [apply N.mod_small; auto|]. apply N.mod_0_l, N.pow_nonzero. lia. }
  rewrite Eb. destruct off as [d|].
  - destruct (Z.ltb_spec d 0) as [|Hd]; [discriminate|].
    destruct (N.ltb_spec (Z.to_N d) msize) as [|Hm]; [discriminate|].
    destruct (usub Debug w (Z.to_N d - msize) hsize) as [x|] eqn:Es; [|discriminate].
    apply usub_debug in Es. destruct Es as [Hh ->].
    destruct (uadd Debug w _ _) as [y|] eqn:Ea; [|discriminate].
    apply uadd_debug in Ea. destruct Ea as [-> _]. intro E. injection E as <-.
    split; [lia|]. intros d' E. injection E as <-. lia.
  - intro E. injection E as <-. split; [lia|discriminate].
Qed.

Lemma offset_invalid m w msize hsize base off :
  run_offset m w msize hsize base off = OInvalid -> exists d, off = Some d /\ (d < Z.of_N msize)%Z.
Proof.
  unfold run_offset. destruct off as [d|]; [|discriminate].
  destruct (Z.ltb_spec d 0) as [|Hd]; [intro; exists d; split; [reflexivity|lia]|].
  destruct (N.ltb_spec (Z.to_N d) msize) as [|Hm]; [intro; exists d; split; [reflexivity|lia]|].
  destruct (usub _ _ _ _); [|discriminate]. destruct (uadd _ _ _ _); discriminate.
Qed.

Lemma resolved_intro v tracks msize tf t k t0 run :
  hget (tf_id tf) tracks = Some t -> find (fun k => tk_id k =? tf_id tf) (mv_trak v) = Some k ->
  tf_run tf = Some run -> tf_time tf = Some t0 ->
  (forall d, tr_off run = Some d -> (Z.of_N msize <= d)%Z) ->
  resolved v tracks msize tf = Some (t, k, t0, run).
Proof.
  intros E1 E2 E3 E4 H. unfold resolved. rewrite E1, E2, E3, E4.
  destruct (tr_off run) as [d|]; [|reflexivity]. specialize (H d eq_refl).
  destruct (Z.ltb_spec d (Z.of_N msize)); [lia|reflexivity].
Qed.

Lemma resolved_inv v tracks msize tf t k t0 run :
  resolved v tracks msize tf = Some (t, k, t0, run) ->
  hget (tf_id tf) tracks = Some t /\ find (fun k => tk_id k =? tf_id tf) (mv_trak v) = Some k /\
  tf_run tf = Some run /\ tf_time tf = Some t0 /\
  (forall d, tr_off run = Some d -> (Z.of_N msize <= d)%Z).
Proof.
  unfold resolved. destruct (hget _ _) as [t'|]; [|discriminate]. destruct (find _ _) as [k'|]; [|discriminate].
  destruct (tf_run tf) as [run'|]; [|discriminate]. destruct (tf_time tf) as [t0'|]; [|discriminate].
  destruct (tr_off run') as [d|] eqn:Er.
  - destruct (Z.ltb_spec d (Z.of_N msize)); [discriminate|]. intro E. injection E as <- <- <- <-.
    do 4 (split; [reflexivity|]). rewrite Er. intros d' E. injection E as <-. assumption.
  - intro E. injection E as <- <- <- <-. do 4 (split; [reflexivity|]). rewrite Er. discriminate.
Qed.

(** How a [traf] ends: all its samples were written, one was outside, or it cannot be read. *)
Lemma traf_debug w v data hsize tf s s' o :
  traf_step Debug w v data hsize tf s = (s', o) -> o <> IPanic -> fields w v tf ->
  let P := places_of (run_from (im_moof_size s) hsize) v (im_tracks s) (im_moof_size s) tf in
  (good v (im_tracks s) (im_moof_size s) tf = false /\ s' = s /\ (exists e, o = IErr e)) \/
  (good v (im_tracks s) (im_moof_size s) tf = true /\
   exists new, im_log s' = im_log s ++ new /\ kept s s' /\
    (length new <= length P)%nat /\
    Forall2 (written_for data) (firstn (length new) P) new /\ stops data P (length new) o).
Proof.
  intros E Ho [Hb Hf]. cbv zeta. unfold traf_step in E. unfold good.
  destruct (hget (tf_id tf) (im_tracks s)) as [t|] eqn:E1;
    [|left; unfold resolved; rewrite E1; injection E as <- <-; eauto].
  destruct (find _ (mv_trak v)) as [k|] eqn:E2;
    [|left; unfold resolved; rewrite E1, E2; injection E as <- <-; eauto].
  destruct (tf_run tf) as [run|] eqn:E3;
    [|left; unfold resolved; rewrite E1, E2, E3; injection E as <- <-; eauto].
  destruct (tf_time tf) as [t0|] eqn:E4;
    [|left; unfold resolved; rewrite E1, E2, E3, E4; injection E as <- <-; eauto].
  destruct (run_offset Debug w (im_moof_size s) hsize (tf_base tf) (tr_off run)) as [off| |] eqn:E5.
  - right. destruct (offset_debug _ _ _ _ _ _ Hb E5) as [Eo Hd].
    pose proof (resolved_intro v (im_tracks s) (im_moof_size s) tf t k t0 run E1 E2 E3 E4 Hd) as Er.
    unfold places_of. rewrite Er. split; [reflexivity|].
    destruct (Hf run t0 eq_refl eq_refl) as [Ht Hc].
    destruct (samples_debug _ _ _ _ _ _ _ _ _ _ _ _ E Ho Ht Hc) as (new & H).
    exists new. rewrite Eo in H. exact H.
  - left. destruct (offset_invalid _ _ _ _ _ _ E5) as (d & Ed & Hd).
    unfold resolved. rewrite E1, E2, E3, E4, Ed. apply Z.ltb_lt in Hd. rewrite Hd.
    injection E as <- <-. eauto.
  - injection E as <- <-. congruence.
Qed.

Lemma trafs_debug w v data hsize tfs : forall s s' o,
  trafs Debug w v data hsize tfs s = (s', o) -> o <> IPanic ->
  Forall (fields w v) (leading (good v (im_tracks s) (im_moof_size s)) tfs) ->
  let P := places (run_from (im_moof_size s) hsize) v (im_tracks s) (im_moof_size s) tfs in
  exists new, im_log s' = im_log s ++ new /\ kept s s' /\
    (length new <= length P)%nat /\
    Forall2 (written_for data) (firstn (length new) P) new /\
    ends v (im_tracks s) (im_moof_size s) P data tfs (length new) o.
Proof.
  induction tfs as [|tf tfs IH]; intros s s' o E Ho Hf.
  - cbn in E. injection E as <- <-. exists []. rewrite app_nil_r.
    split; [reflexivity|]. split; [apply kept_refl|]. split; [cbn; lia|]. split; [constructor|].
    split; reflexivity.
  - cbn [trafs] in E. cbv zeta.
    destruct (traf_step Debug w v data hsize tf s) as [s1 o1] eqn:E1.
    assert (Ho1 : o1 <> IPanic).
    { intros ->. injection E as _ <-. congruence. }
    unfold ends, places. cbn [leading forallb] in *.
    destruct (good v (im_tracks s) (im_moof_size s) tf) eqn:Eg.
    + inversion Hf as [|? ? Hf1 Hf2]; subst. cbn [flat_map].
      destruct (traf_debug _ _ _ _ _ _ _ _ E1 Ho1 Hf1) as [[Hg _]|[_ (new & El & Kp & Hn & Hw & Hst)]]; [congruence|].
      set (P1 := places_of (run_from (im_moof_size s) hsize) v (im_tracks s) (im_moof_size s) tf) in *.
      destruct o1 as [|e|]; [| |congruence].
      * destruct Kp as (K1 & K2 & K3 & K4 & K5). cbn [stops] in Hst.
        assert (Hf2' : Forall (fields w v) (leading (good v (im_tracks s1) (im_moof_size s1)) tfs))
          by (rewrite K1, K4; exact Hf2).
        destruct (IH _ _ _ E Ho Hf2') as (new' & El' & Kp' & Hn' & Hw' & He).
        unfold ends, places in He, Hw', Hn'. rewrite K1, K4 in He, Hw', Hn'.
        set (P2 := flat_map _ _) in *.
        exists (new ++ new'). rewrite El', El, app_assoc. split; [reflexivity|].
        split. { eapply kept_trans; [|exact Kp']. unfold kept. auto. }
        rewrite app_length. split; [rewrite app_length; lia|]. split.
        -- rewrite firstn_app. apply Forall2_app.
           ++ rewrite firstn_all2 by lia. rewrite Hst, firstn_all in Hw. exact Hw.
           ++ replace (length new + length new' - length P1)%nat with (length new') by lia. exact Hw'.
        -- cbn [andb]. destruct o as [|e|].
           ++ destruct He as [He ->]. split; [rewrite app_length; lia|reflexivity].
           ++ destruct He as [(-> & p & Hp & Hi)|[He1 He2]].
              ** left. split; [reflexivity|]. exists p. split; [|exact Hi].
                 rewrite nth_error_app2 by lia. rewrite <- Hp. f_equal. lia.
              ** right. split; [rewrite app_length; lia|exact He2].
           ++ exact He.
      * injection E as <- <-. exists new. split; [exact El|]. split; [exact Kp|].
        cbn [stops] in Hst. destruct Hst as (-> & p & Hp & Hi).
        assert (length new < length P1)%nat by (apply nth_error_Some; congruence).
        split; [rewrite app_length; lia|]. split.
        -- rewrite firstn_app. replace (length new - length P1)%nat with 0%nat by lia. cbn [firstn].
           rewrite app_nil_r. exact Hw.
        -- left. split; [reflexivity|]. exists p. split; [|exact Hi]. rewrite nth_error_app1 by lia. exact Hp.
    + assert (Hno : s1 = s /\ exists e, o1 = IErr e).
      { clear - E1 Ho1 Eg. revert E1. unfold traf_step. unfold good, resolved in Eg.
        destruct (hget _ _) as [t|]; [|intro E; injection E as <- <-; eauto].
        destruct (find _ _) as [k|]; [|intro E; injection E as <- <-; eauto].
        destruct (tf_run tf) as [run|]; [|intro E; injection E as <- <-; eauto].
        destruct (tf_time tf) as [t0|]; [|intro E; injection E as <- <-; eauto].
        unfold run_offset. destruct (tr_off run) as [d|]; [|discriminate].
        destruct (Z.ltb_spec d (Z.of_N (im_moof_size s))) as [Hd|]; [|discriminate].
        destruct (Z.ltb_spec d 0); [intro E; injection E as <- <-; eauto|].
        destruct (N.ltb_spec (Z.to_N d) (im_moof_size s)); [intro E; injection E as <- <-; eauto|lia]. }
      destruct Hno as (-> & e & ->). injection E as <- <-. exists []. rewrite app_nil_r.
      split; [reflexivity|]. split; [apply kept_refl|]. split; [cbn; lia|]. split; [constructor|].
      right. split; reflexivity.
Qed.

(** ** Where debug does not panic, release does the same *)
Lemma uadd_agree w a b x m : uadd Debug w a b = Val x -> uadd m w a b = Val x.
Proof. intro E. destruct (uadd_debug _ _ _ _ E) as [-> H]. apply uadd_fits. exact H. Qed.
Lemma usub_agree w a b x m : usub Debug w a b = Val x -> usub m w a b = Val x.
Proof. intro E. destruct (usub_debug _ _ _ _ E) as [H ->]. apply usub_fits. exact H. Qed.
Lemma time_agree scale dts e x m : sample_time Debug scale dts e = Val x -> sample_time m scale dts e = Val x.
Proof.
  unfold sample_time, iadd64. destruct (_ && _)%bool; [|discriminate].
  destruct (umul Debug _ _ _) as [y|] eqn:E; [|discriminate].
  destruct (umul_debug _ _ _ _ E) as [-> H]. rewrite (umul_fits m) by exact H. auto.
Qed.

Lemma sample_agree m w v k t tf data e dts off s :
  snd (sample Debug w v k t tf data e dts off s) <> SStop IPanic ->
  sample m w v k t tf data e dts off s = sample Debug w v k t tf data e dts off s.
Proof.
  unfold sample.
  destruct (sample_time Debug _ _ _) as [ts|] eqn:E1; [rewrite (time_agree _ _ _ _ m E1)|intro H; cbn in H; congruence].
  destruct (uadd Debug w off _) as [en|] eqn:E2; [rewrite (uadd_agree _ _ _ _ m E2)|intro H; cbn in H; congruence].
  destruct (_ <? _); [reflexivity|].
  destruct (sample_key _ _ _ _ _) as [[last key]|]; [|reflexivity].
  cbv zeta. destruct (slice _ _ _); [|reflexivity]. destruct (media_header _); [|reflexivity].
  destruct (uadd Debug 64 dts _) as [d|] eqn:E3; [rewrite (uadd_agree _ _ _ _ m E3)|intro H; cbn in H; congruence].
  reflexivity.
Qed.

Lemma samples_agree m w v k t tf data es : forall dts off s,
  snd (samples Debug w v k t tf data es dts off s) <> IPanic ->
  samples m w v k t tf data es dts off s = samples Debug w v k t tf data es dts off s.
Proof.
  induction es as [|e es IH]; intros dts off s; [reflexivity|]. cbn [samples]. intro H.
  assert (Hs : snd (sample Debug w v k t tf data e dts off s) <> SStop IPanic).
  { intro E. destruct (sample Debug _ _ _ _ _ _ _ _ _ _) as [s1 r]. cbn in E. subst r. cbn in H. congruence. }
  rewrite (sample_agree m) by exact Hs.
  destruct (sample Debug _ _ _ _ _ _ _ _ _ _) as [s1 [d o|o]]; [|reflexivity]. apply IH. exact H.
Qed.

Lemma traf_agree m w v data hsize tf s :
  snd (traf_step Debug w v data hsize tf s) <> IPanic ->
  traf_step m w v data hsize tf s = traf_step Debug w v data hsize tf s.
Proof.
  unfold traf_step. destruct (hget _ _); [|reflexivity]. destruct (find _ _); [|reflexivity].
  destruct (tf_run tf) as [run|]; [|reflexivity]. destruct (tf_time tf); [|reflexivity].
  assert (Ho : run_offset Debug w (im_moof_size s) hsize (tf_base tf) (tr_off run) <> OPanic ->
    run_offset m w (im_moof_size s) hsize (tf_base tf) (tr_off run) =
    run_offset Debug w (im_moof_size s) hsize (tf_base tf) (tr_off run)).
  { unfold run_offset. destruct (tr_off run); [|reflexivity]. destruct (_ <? _)%Z; [reflexivity|].
    destruct (_ <? _); [reflexivity|].
    destruct (usub Debug _ _ _) as [x|] eqn:E1; [rewrite (usub_agree _ _ _ _ m E1)|congruence].
    destruct (uadd Debug _ _ _) as [y|] eqn:E2; [rewrite (uadd_agree _ _ _ _ m E2); reflexivity|congruence]. }
  destruct (run_offset Debug _ _ _ _ _) eqn:E.
  - rewrite Ho by congruence. apply samples_agree.
  - rewrite Ho by congruence. reflexivity.
  - intro H. cbn in H. congruence.
Qed.

Lemma trafs_agree m w v data hsize tfs : forall s,
  snd (trafs Debug w v data hsize tfs s) <> IPanic ->
  trafs m w v data hsize tfs s = trafs Debug w v data hsize tfs s.
Proof.
  induction tfs as [|tf tfs IH]; intro s; [reflexivity|]. cbn [trafs]. intro H.
  assert (Hs : snd (traf_step Debug w v data hsize tf s) <> IPanic).
  { intro E. destruct (traf_step Debug _ _ _ _ _ _) as [s1 r]. cbn in E. subst r. cbn in H. congruence. }
  rewrite (traf_agree m) by exact Hs.
  destruct (traf_step Debug _ _ _ _ _ _) as [s1 [| |]]; [|reflexivity..]. apply IH. exact H.
Qed.

Theorem extract_agree m w data hsize s :
  snd (extract Debug w data hsize s) <> IPanic ->
  extract m w data hsize s = extract Debug w data hsize s.
Proof.
  unfold extract. destruct (im_moov s); [|reflexivity]. destruct (im_moof s); [|reflexivity]. apply trafs_agree.
Qed.
