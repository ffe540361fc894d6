(** What is sent to the audio worklet. *)
From Coq Require Import NArith List Bool Arith Lia.
From Verif.Model Require Import Base Audio.
From Verif.Spec Require Import AudioSpec.
From Verif.Proofs Require Import AudioPlayP.
Import ListNotations.
Open Scope nat_scope.

Lemma arun_snoc e ops o : forall a, arun e a (ops ++ [o]) = let (a1, tr) := arun e a ops in let (a2, x) := astep e a1 o in (a2, tr ++ [(o, x)]).
Proof.
  induction ops as [|o' ops IH]; intros a; cbn [app arun].
  - destruct (astep e a o). reflexivity.
  - destruct (astep e a o') as [a1 x]. rewrite IH. destruct (arun e a1 ops) as [a2 tr]. destruct (astep e a2 o). reflexivity.
Qed.

(** * At the same rate *)
Lemma proxied e a p rate d : playing p rate a -> ad_rate d = rate ->
  astep e a (ODecoded d) = (a, [(p, Sound (ad_planes d) (N.modulo (ad_time d) (2 ^ 64)))]).
Proof.
  intros (Wk & Rt & Tk & Dd) E. unfold astep. rewrite Dd. destruct (au_track a); [|congruence]. rewrite Wk, Rt, E, N.eqb_refl. reflexivity.
Qed.

(** * Resampling *)

Lemma append_all e d c : length (ad_planes d) = c -> forall k i bufs, i + k = c -> length bufs = k ->
  append_planes e i d bufs = (map (fun x => fst x ++ nth (snd x) (ad_planes d) []) (combine bufs (seq i k)), true).
Proof.
  intros L. induction k as [|k IH]; intros i bufs E Lb; destruct bufs as [|b bufs]; cbn in Lb; try lia; [reflexivity|].
  cbn [append_planes]. destruct (nth_error (ad_planes d) i) as [p|] eqn:Ep; [|apply nth_error_None in Ep; lia].
  rewrite (IH (S i) bufs) by lia. cbn [seq combine map fst snd]. rewrite (nth_error_nth _ _ _ Ep). reflexivity.
Qed.
Lemma combine_seq (f : nat -> list sample) (p : list (list sample)) i k :
  map (fun x => fst x ++ nth (snd x) p []) (combine (map f (seq i k)) (seq i k)) = map (fun j => f j ++ nth j p []) (seq i k).
Proof. revert i. induction k as [|k IH]; intros i; [reflexivity|]. cbn [seq map combine fst snd]. rewrite IH. reflexivity. Qed.

Lemma skip_skip {A} a b (l : list A) : skipn a (skipn b l) = skipn (a + b) l.
Proof.
  revert b. induction l as [|x l IH]; intros b; [rewrite !skipn_nil; reflexivity|]. destruct b as [|b]; [rewrite Nat.add_0_r; reflexivity|].
  rewrite Nat.add_succ_r. cbn [skipn]. apply IH.
Qed.

Section Rounds.
Context (e : engine) (time to from : N) (n c S : nat) (st : nat -> list sample).

Definition piece (k : nat) : list (list sample) := map (fun j => firstn n (skipn (k * n) (st j))) (seq 0 c).
Definition fed_to (q : nat) : resampler := Resampler to from n c (map piece (seq 0 q)).
Definition left_over (q : nat) : list (list sample) := map (fun j => skipn (q * n) (st j)) (seq 0 c).
Definition emitted (k : nat) : list message :=
  let o := en_out e (fed_to (Datatypes.S k)) in if Nat.eqb (out_length o) 0 then [] else [Sound o (N.modulo time (2 ^ 64))].

Lemma rounds_ok fuel : 1 <= n -> 1 <= c -> (forall j, j < c -> length (st j) = S) -> forall q, q * n <= S -> S - q * n < fuel ->
  rounds e time fuel (fed_to q) (left_over q) = (fed_to (S / n), left_over (S / n), flat_map emitted (seq q (S / n - q)), EDone).
Proof.
  intros Pn Pc Ls. induction fuel as [|fuel IH]; intros q Lq Lf; [lia|].
  cbn [rounds]. destruct (left_over q) as [|b bs] eqn:El; [unfold left_over in El; apply map_eq_nil in El; destruct c; [lia|discriminate El]|].
  assert (Lb : length b = S - q * n).
  { unfold left_over in El. destruct c as [|c']; [lia|]. cbn [seq map] in El. injection El as <- _. rewrite skipn_length, Ls by lia. reflexivity. }
  rewrite <- El. rewrite Lb. cbn [fed_to rs_chunk].
  destruct (Nat.ltb_spec (S - q * n) n) as [Lt|Ge].
  - assert (Eq : S / n = q) by (symmetry; apply (Nat.div_unique S n q (S - q * n)); nia).
    rewrite Eq, Nat.sub_diag. reflexivity.
  - assert (All : forallb (fun b => n <=? length b) (left_over q) = true).
    { apply forallb_forall. intros x I. unfold left_over in I. apply in_map_iff in I. destruct I as (j & <- & Ij).
      apply in_seq in Ij. rewrite skipn_length, Ls by lia. apply Nat.leb_le. exact Ge. }
    rewrite All. cbn [negb].
    assert (Ef : fed (fed_to q) (map (firstn n) (left_over q)) = fed_to (Datatypes.S q)).
    { unfold fed, fed_to. cbn [rs_to rs_from rs_chunk rs_channels rs_fed]. f_equal. rewrite seq_S, map_app. cbn [map Nat.add]. f_equal. f_equal.
      unfold left_over, piece. rewrite map_map. reflexivity. }
    assert (Ek : map (skipn n) (left_over q) = left_over (Datatypes.S q)).
    { unfold left_over. rewrite map_map. apply map_ext. intros j. rewrite skip_skip. reflexivity. }
    cbv zeta. change (Resampler to from n c (map piece (seq 0 q))) with (fed_to q). rewrite Ef. cbn [fed_to rs_chunk]. rewrite Ek.
    change (Resampler to from n c (map piece (seq 0 (Datatypes.S q)))) with (fed_to (Datatypes.S q)).
    rewrite (IH (Datatypes.S q)) by (cbn; nia).
    assert (Lq' : Datatypes.S q <= S / n) by (apply Nat.div_le_lower_bound; nia).
    assert (Es : seq q (S / n - q) = q :: seq (Datatypes.S q) (S / n - Datatypes.S q)).
    { replace (S / n - q) with (Datatypes.S (S / n - Datatypes.S q)) by lia. reflexivity. }
    rewrite Es. cbn [flat_map].
    assert (Em : emitted q = match out_length (en_out e (fed_to (Datatypes.S q))) with 0 => [] | _ => [Sound (en_out e (fed_to (Datatypes.S q))) (N.modulo time (2 ^ 64))] end).
    { unfold emitted. destruct (out_length (en_out e (fed_to (Datatypes.S q)))); reflexivity. }
    rewrite Em. destruct (out_length (en_out e (fed_to (Datatypes.S q)))); reflexivity.
Qed.
End Rounds.

(** One more frame. *)
Lemma stream_snoc j ds d : stream j (ds ++ [d]) = stream j ds ++ nth j (ad_planes d) [].
Proof. unfold stream. rewrite map_app, concat_app. cbn [map concat]. rewrite app_nil_r. reflexivity. Qed.
Lemma samples_cons d ds : samples (d :: ds) = ad_frames d + samples ds.
Proof. reflexivity. Qed.
Lemma samples_snoc ds d : samples (ds ++ [d]) = samples ds + ad_frames d.
Proof. unfold samples. rewrite map_app, list_sum_app. cbn. lia. Qed.
Lemma stream_length from c j ds : j < c -> Forall (alike from c) ds -> length (stream j ds) = samples ds.
Proof.
  intros Lj. induction 1 as [|d ds ((_ & _ & F) & _ & Lc) _ IH]; [reflexivity|]. unfold stream, samples in *. cbn [map concat list_sum fold_right].
  rewrite app_length, IH. f_equal. rewrite Forall_forall in F. apply F. apply nth_In. rewrite Lc. exact Lj.
Qed.

Lemma chunk_early n c k ds ds' : (forall j, j < c -> (k + 1) * n <= length (stream j ds)) -> chunk n c k (ds ++ ds') = chunk n c k ds.
Proof.
  intros H. unfold chunk. apply map_ext_in. intros j Ij. apply in_seq in Ij. specialize (H j ltac:(lia)).
  unfold stream in *. rewrite map_app, concat_app, skipn_app, firstn_app, skipn_length.
  replace (n - _) with 0 by lia. rewrite firstn_O, app_nil_r. reflexivity.
Qed.
Lemma time_early i ds ds' : i < samples ds -> time_at i (ds ++ ds') = time_at i ds.
Proof.
  revert i. induction ds as [|d ds IH]; intros i L; [unfold samples in L; cbn in L; lia|]. cbn [app time_at].
  destruct (Nat.ltb_spec i (ad_frames d)); [reflexivity|]. apply IH. rewrite samples_cons in L. lia.
Qed.
Lemma time_late i ds d : samples ds <= i < samples ds + ad_frames d -> time_at i (ds ++ [d]) = ad_time d.
Proof.
  revert i. induction ds as [|x ds IH]; intros i L; cbn [app time_at].
  - unfold samples in L. cbn in L. destruct (Nat.ltb_spec i (ad_frames d)); [reflexivity|lia].
  - rewrite samples_cons in L. destruct (Nat.ltb_spec i (ad_frames x)); [lia|]. apply IH. lia.
Qed.

Lemma resampled_snoc e to from n c ds d : 1 <= n -> Forall (alike from c) ds -> alike from c d ->
  resampled e to from n c (ds ++ [d]) = resampled e to from n c ds ++
    flat_map (emitted e (ad_time d) to from n c (fun j => stream j (ds ++ [d]))) (seq (samples ds / n) (samples (ds ++ [d]) / n - samples ds / n)).
Proof.
  intros Pn F Ad. unfold resampled. set (S := samples ds). set (S' := samples (ds ++ [d])).
  assert (LS : S <= S') by (unfold S, S'; rewrite samples_snoc; lia).
  assert (Lq : S / n <= S' / n) by (apply Nat.div_le_mono; lia).
  replace (S' / n) with (S / n + (S' / n - S / n)) at 1 by lia. rewrite seq_app, flat_map_app. cbn [Nat.add]. f_equal.
  - rewrite !flat_map_concat_map. f_equal. apply map_ext_in. intros k Ik. apply in_seq in Ik.
    assert (Hk : (k + 1) * n <= S) by (pose proof (Nat.mul_div_le S n ltac:(lia)); nia).
    assert (Ec : map (fun k => chunk n c k (ds ++ [d])) (seq 0 (Datatypes.S k)) = map (fun k => chunk n c k ds) (seq 0 (Datatypes.S k))).
    { apply map_ext_in. intros k' Ik'. apply in_seq in Ik'. apply chunk_early. intros j Lj. rewrite (stream_length from c j ds Lj F). fold S. nia. }
    rewrite Ec, time_early by (fold S; nia). reflexivity.
  - rewrite !flat_map_concat_map. f_equal. apply map_ext_in. intros k Ik. apply in_seq in Ik.
    assert (ES : S' = S + ad_frames d) by apply samples_snoc.
    rewrite time_late; [reflexivity|]. fold S. rewrite <- ES.
    pose proof (Nat.mul_div_le S' n ltac:(lia)). pose proof (Nat.mul_succ_div_gt S n ltac:(lia)). nia.
Qed.

(** The buffers after frames [ds]. *)
Record resampling (e : engine) (p : nat) (to from : N) (n c : nat) (ds : list audio_data) (a : audio) : Prop := {
  re_playing : playing p to a;
  re_is : au_resampler a = Some (fed_to to from n c (fun j => stream j ds) (samples ds / n));
  re_left : au_in a = left_over n c (fun j => stream j ds) (samples ds / n) }.

Lemma fed_early to from n c ds d : 1 <= n -> Forall (alike from c) ds ->
  fed_to to from n c (fun j => stream j (ds ++ [d])) (samples ds / n) = fed_to to from n c (fun j => stream j ds) (samples ds / n).
Proof.
  intros Pn F. unfold fed_to. f_equal. apply map_ext_in. intros k Ik. apply in_seq in Ik.
  apply (chunk_early n c k ds [d]). intros j Lj. rewrite (stream_length from c j ds Lj F).
  pose proof (Nat.mul_div_le (samples ds) n ltac:(lia)). nia.
Qed.
Lemma left_later n c from ds d : 1 <= n -> Forall (alike from c) ds ->
  map (fun j => skipn (samples ds / n * n) (stream j ds) ++ nth j (ad_planes d) []) (seq 0 c) =
  left_over n c (fun j => stream j (ds ++ [d])) (samples ds / n).
Proof.
  intros Pn F. unfold left_over. apply map_ext_in. intros j Ij. apply in_seq in Ij. rewrite stream_snoc, skipn_app.
  rewrite (stream_length from c j ds ltac:(lia) F). pose proof (Nat.mul_div_le (samples ds) n ltac:(lia)).
  replace (samples ds / n * n - samples ds) with 0 by lia. reflexivity.
Qed.

Lemma resample_step e p to from n c ds a d : to <> from -> 1 <= n -> 1 <= c -> Forall (alike from c) ds -> alike from c d ->
  resampling e p to from n c ds a \/ (ds = [] /\ playing p to a /\ au_resampler a = None /\ n = ad_frames d /\ en_new e to from n c = true) ->
  exists a', astep e a (ODecoded d) = (a', map (pair p) (flat_map (emitted e (ad_time d) to from n c (fun j => stream j (ds ++ [d])))
      (seq (samples ds / n) (samples (ds ++ [d]) / n - samples ds / n)))) /\ resampling e p to from n c (ds ++ [d]) a'.
Proof.
  intros Ne Pn Pc F Ad K. pose proof Ad as ((W1 & W2 & W3) & Rd & Lc).
  assert (Pl : playing p to a) by (destruct K as [K|(_ & K & _)]; [apply K|exact K]). destruct Pl as (Wk & Rt & Tk & Dd).
  set (S := samples ds) in *. set (S' := samples (ds ++ [d])).
  assert (ES : S' = S + ad_frames d) by apply samples_snoc.
  assert (Made : match au_resampler a with
              | Some r => Some (r, au_in a)
              | None => if en_new e (au_rate a) (ad_rate d) (ad_frames d) (length (ad_planes d))
                        then Some (Resampler (au_rate a) (ad_rate d) (ad_frames d) (length (ad_planes d)) [],
                                   repeat [] (length (ad_planes d)))
                        else None
              end = Some (fed_to to from n c (fun j => stream j (ds ++ [d])) (S / n), left_over n c (fun j => stream j ds) (S / n))).
  { destruct K as [K|(-> & _ & No & En & Ok)].
    - rewrite (re_is _ _ _ _ _ _ _ _ K), (re_left _ _ _ _ _ _ _ _ K). fold S. unfold S. rewrite (fed_early to from n c ds d Pn F). reflexivity.
    - rewrite No, Rt, Rd, <- En, Lc, Ok. change S with 0. rewrite Nat.div_0_l by lia. unfold fed_to, left_over. cbn [seq map].
      f_equal. f_equal.
      assert (Rp : forall k i, repeat [] k = map (fun j : nat => skipn (0 * n) (stream j [])) (seq i k)).
      { induction k as [|k IHk]; intros i; [reflexivity|]. cbn [repeat seq map]. rewrite <- IHk. reflexivity. }
      apply Rp. }
  assert (Ap : append_planes e 0 d (left_over n c (fun j => stream j ds) (S / n)) = (left_over n c (fun j => stream j (ds ++ [d])) (S / n), true)).
  { rewrite (append_all e d c Lc c 0) by (try reflexivity; unfold left_over; rewrite map_length, seq_length; reflexivity).
    unfold left_over. rewrite combine_seq. f_equal. apply (left_later n c from ds d Pn F). }
  assert (Fu : (match left_over n c (fun j => stream j (ds ++ [d])) (S / n) with [] => 0 | b :: _ => length b end) = S' - S / n * n).
  { unfold left_over. destruct c as [|c']; [lia|]. cbn [seq map]. rewrite skipn_length.
    rewrite (stream_length from (Datatypes.S c') 0 (ds ++ [d])) by (try lia; apply Forall_app; auto). reflexivity. }
  pose proof (Nat.mul_div_le S n ltac:(lia)) as Md.
  assert (Ro := rounds_ok e (ad_time d) to from n c S' (fun j => stream j (ds ++ [d])) (Datatypes.S (S' - S / n * n)) Pn Pc
     (fun j Lj => stream_length from c j (ds ++ [d]) Lj (proj2 (Forall_app _ _ _) (conj F (Forall_cons _ Ad (Forall_nil _))))) (S / n) ltac:(lia) ltac:(lia)).
  eexists. unfold astep. rewrite Dd. destruct (au_track a) as [t|] eqn:Et; [|congruence]. rewrite Wk.
  destruct (N.eqb_spec (ad_rate d) (au_rate a)) as [Eq|_]; [congruence|]. unfold resample. rewrite Made, Ap, Fu, Ro.
  split; [reflexivity|]. split; [|reflexivity|reflexivity].
  unfold playing. cbn [with_resampler au_worklet au_rate au_track au_dead]. rewrite Et. auto.
Qed.

Lemma resample_run e p to from c d0 ds a : to <> from -> Forall (alike from c) (d0 :: ds) ->
  playing p to a -> au_resampler a = None -> en_new e to from (ad_frames d0) c = true ->
  let r := arun e a (map ODecoded (d0 :: ds)) in
  resampling e p to from (ad_frames d0) c (d0 :: ds) (fst r) /\ posts (snd r) = map (pair p) (resampled e to from (ad_frames d0) c (d0 :: ds)).
Proof.
  intros Ne F Pl No Ok. pose proof (Forall_inv F) as ((W1 & W2 & _) & _ & Lc).
  set (n := ad_frames d0) in *. assert (Pc : 1 <= c) by lia.
  assert (G : forall ds', Forall (alike from c) ds' -> (exists ds'', ds' = d0 :: ds'') ->
    let r := arun e a (map ODecoded ds') in resampling e p to from n c ds' (fst r) /\ posts (snd r) = map (pair p) (resampled e to from n c ds')).
  { induction ds' as [|d ds' IH] using rev_ind; intros F' (ds'' & E); [discriminate E|].
    apply Forall_app in F'. destruct F' as [F' Fd]. pose proof (Forall_inv Fd) as Ad.
    cbv zeta. rewrite map_app. cbn [map]. rewrite arun_snoc, (resampled_snoc e to from n c ds' d W1 F' Ad).
    assert (Pre : resampling e p to from n c ds' (fst (arun e a (map ODecoded ds'))) /\ posts (snd (arun e a (map ODecoded ds'))) = map (pair p) (resampled e to from n c ds')
      \/ (ds' = [] /\ d = d0)).
    { destruct ds' as [|x ds']; [right; split; [reflexivity|]; cbn in E; congruence|]. left. apply IH; [exact F'|]. cbn in E. injection E as -> _. eauto. }
    destruct Pre as [[K Po]|[-> ->]].
    - destruct (arun e a (map ODecoded ds')) as [a1 tr]. cbn [fst snd] in *.
      destruct (resample_step e p to from n c ds' a1 d Ne W1 Pc F' Ad (or_introl K)) as (a' & St & K'). rewrite St. cbn [fst snd]. split; [exact K'|].
      unfold posts in *. rewrite flat_map_app, Po. cbn [flat_map snd]. rewrite app_nil_r, map_app. reflexivity.
    - cbn [map arun]. destruct (resample_step e p to from n c [] a d0 Ne W1 Pc F' Ad) as (a' & St & K').
      { right. auto. }
      cbn [app] in *. rewrite St. cbn [fst snd]. split; [exact K'|]. unfold posts. cbn [flat_map snd app]. rewrite app_nil_r.
      unfold resampled at 1. change (samples []) with 0. rewrite Nat.div_0_l by lia. cbn [seq flat_map app]. reflexivity. }
  apply (G (d0 :: ds) F). eauto.
Qed.

(** * Times *)

(** When all frames have the same size a message has the time of its first sample. *)
Lemma time_same n ds : 1 <= n -> Forall (fun d => ad_frames d = n) ds -> forall k, k < length ds -> time_at (k * n + (n - 1)) ds = time_at (k * n) ds.
Proof.
  intros Pn. induction 1 as [|d ds E _ IH]; intros k L; cbn in L; [lia|]. cbn [time_at]. rewrite E. destruct k as [|k].
  - destruct (Nat.ltb_spec (0 * n + (n - 1)) n); [|lia]. destruct (Nat.ltb_spec (0 * n) n); [reflexivity|lia].
  - destruct (Nat.ltb_spec (Datatypes.S k * n + (n - 1)) n); [nia|]. destruct (Nat.ltb_spec (Datatypes.S k * n) n); [nia|].
    replace (Datatypes.S k * n + (n - 1) - n) with (k * n + (n - 1)) by nia. replace (Datatypes.S k * n - n) with (k * n) by nia. apply IH. lia.
Qed.

(** * Whatever happens *)

Record sane (a : audio) : Prop := {
  sa_alive : au_dead a = false;
  sa_chunk : forall r, au_resampler a = Some r -> 1 <= rs_chunk r;
  sa_in : au_resampler a <> None -> au_in a <> [] }.

Lemma rounds_sane e time : even_engine e -> forall fuel r bufs r' bufs' ms z, 1 <= rs_chunk r -> bufs <> [] ->
  (match bufs with [] => 0 | b :: _ => length b end) < fuel -> rounds e time fuel r bufs = (r', bufs', ms, z) ->
  1 <= rs_chunk r' /\ bufs' <> [] /\ Forall proper ms /\ (z = EDone \/ z = EFailed).
Proof.
  intros Ev. induction fuel as [|fuel IH]; intros r bufs r' bufs' ms z Pc Nb Lf E; [lia|]. cbn [rounds] in E.
  destruct bufs as [|b bs]; [congruence|]. destruct (Nat.ltb_spec (length b) (rs_chunk r)) as [Lt|Ge]; [injection E as <- <- <- <-; auto|].
  destruct (negb _) eqn:En; [injection E as <- <- <- <-; auto|].
  cbv zeta in E. set (r1 := fed r (map (firstn (rs_chunk r)) (b :: bs))) in *.
  destruct (rounds e time fuel r1 (map (skipn (rs_chunk r1)) (b :: bs))) as [[[r2 b2] m2] z2] eqn:Er.
  assert (P1 : 1 <= rs_chunk r1) by exact Pc.
  destruct (IH r1 (map (skipn (rs_chunk r1)) (b :: bs)) r2 b2 m2 z2 P1 ltac:(discriminate)) as (Q1 & Q2 & Q3 & Q4).
  { cbn [map]. rewrite skipn_length. cbn in Lf. lia. }
  { exact Er. }
  destruct (out_length (en_out e r1)) eqn:Eo; injection E as <- <- <- <-; split; auto. split; auto. split; auto.
  constructor; [|exact Q3]. specialize (Ev r1). rewrite Eo in Ev. unfold proper, size. cbn [ms_channels].
  unfold out_length in Eo. destruct (en_out e r1) as [|c0 cs] eqn:Ec; [discriminate Eo|]. rewrite Eo. split; [lia|]. rewrite <- Eo. rewrite Eo. exact Ev.
Qed.

Lemma append_nonempty e d : forall bufs i, bufs <> [] -> fst (append_planes e i d bufs) <> [].
Proof. intros [|b bufs] i N; [congruence|]. cbn [append_planes]. destruct (nth_error _ _); [destruct (append_planes e (S i) d bufs)|]; cbn [fst]; intros H; discriminate H. Qed.

Lemma sane_reinit ok a : sane a -> sane (reinit ok a).
Proof.
  intros [A B C]. unfold reinit. destruct (au_muted a); [split; auto|]. destruct (au_worklet a); [|split; auto]. destruct (au_first a); [|split; auto].
  destruct (au_track a); [destruct (Nat.eqb _ _)|]; split; auto.
Qed.

Lemma sane_step e a o a' x : even_engine e -> decoded_whole o -> sane a -> astep e a o = (a', x) -> sane a' /\ Forall (fun y => proper (snd y)) x.
Proof.
  intros Ev W K St. pose proof (sa_alive _ K) as Al. unfold astep in St. rewrite Al in St. destruct o.
  - injection St as <- <-. split; [|constructor]. apply sane_reinit. destruct K. split; auto.
  - injection St as <- <-. split; [|constructor]. apply sane_reinit. destruct K. split; auto.
  - injection St as <- <-. split; [|constructor]. apply sane_reinit. destruct K. split; auto.
  - destruct (au_track a); [|injection St as <- <-; auto]. destruct (au_worklet a) as [p|]; [|injection St as <- <-; auto].
    destruct W as (W1 & W2 & W3). destruct (N.eqb (ad_rate d) (au_rate a)).
    + injection St as <- <-. split; [exact K|]. cbn [proxy map]. constructor; [|constructor]. cbn [snd]. unfold proper, size. cbn [ms_channels].
      destruct (ad_planes d) as [|c0 cs] eqn:Ep; [cbn in W2; lia|]. pose proof (Forall_inv W3) as L0. cbn in L0. rewrite L0. auto.
    + unfold resample in St.
      assert (Made : forall r bufs, match au_resampler a with
              | Some r => Some (r, au_in a)
              | None => if en_new e (au_rate a) (ad_rate d) (ad_frames d) (length (ad_planes d))
                        then Some (Resampler (au_rate a) (ad_rate d) (ad_frames d) (length (ad_planes d)) [],
                                   repeat [] (length (ad_planes d)))
                        else None
              end = Some (r, bufs) -> 1 <= rs_chunk r /\ bufs <> []).
      { intros r bufs E. destruct (au_resampler a) as [r0|] eqn:Er.
        - injection E as <- <-. split; [apply (sa_chunk _ K); exact Er|]. apply (sa_in _ K). congruence.
        - destruct (en_new _ _ _ _ _); [|discriminate E]. injection E as <- <-. split; [exact W1|]. destruct (ad_planes d); [cbn in W2; lia|discriminate]. }
      destruct (match au_resampler a with Some r => Some (r, au_in a) | None => _ end) as [[r bufs]|].
      2:{ injection St as <- <-. split; [destruct K; split; auto|constructor]. }
      destruct (Made r bufs eq_refl) as [Pr Pb]. pose proof (append_nonempty e d bufs 0 Pb) as Pb'.
      destruct (append_planes e 0 d bufs) as [bufs1 ok]. cbn [fst] in Pb'. destruct ok.
      * destruct (rounds e (ad_time d) _ r bufs1) as [[[r2 b2] ms] z] eqn:Ero.
        destruct (rounds_sane e (ad_time d) Ev _ r bufs1 r2 b2 ms z Pr Pb' (Nat.lt_succ_diag_r _) Ero) as (Q1 & Q2 & Q3 & Q4).
        injection St as <- <-. split.
        -- destruct Q4 as [-> | ->]; (split; cbn; [exact Al|intros r' [= <-]; exact Q1|auto]).
        -- clear -Q3. induction Q3; cbn [map]; constructor; auto.
      * injection St as <- <-. split; [|constructor]. split; cbn; [exact Al|intros r' [= <-]; exact Pr|auto].
  - injection St as <- <-. split; [destruct K; split; auto|constructor].
Qed.

Lemma sane_run e ops : even_engine e -> Forall decoded_whole ops ->
  au_dead (fst (arun e audio_new ops)) = false /\ Forall (fun y => proper (snd y)) (posts (snd (arun e audio_new ops))).
Proof.
  intros Ev W. assert (G : forall a, sane a -> sane (fst (arun e a ops)) /\ Forall (fun y => proper (snd y)) (posts (snd (arun e a ops)))).
  { induction W as [|o ops Wo W IH]; intros a K; [split; [exact K|constructor]|]. cbn [arun]. destruct (astep e a o) as [a1 x] eqn:St.
    destruct (sane_step e a o a1 x Ev Wo K St) as [K1 F1]. destruct (IH a1 K1) as [K2 F2]. destruct (arun e a1 ops) as [a2 tr]. cbn [fst snd] in *.
    split; [exact K2|]. unfold posts. cbn [flat_map snd]. apply Forall_app. auto. }
  destruct (G audio_new) as [K F]; [split; [reflexivity|discriminate|cbn; congruence]|]. split; [apply K|exact F].
Qed.

Lemma posts_proper e ops p : even_engine e -> Forall decoded_whole ops -> Forall proper (posts_to p (snd (arun e audio_new ops))).
Proof.
  intros Ev W. destruct (sane_run e ops Ev W) as [_ F]. unfold posts_to. apply Forall_forall. intros m I. apply in_map_iff in I. destruct I as (y & <- & I).
  apply filter_In in I. rewrite Forall_forall in F. apply F. apply I.
Qed.

(** From the decoder to the loudspeaker: whatever part of what was posted has arrived. *)
Lemma end_to_end e ops p rops c n : even_engine e -> Forall decoded_whole ops ->
  (exists later, posts_to p (snd (arun e audio_new ops)) = received rops ++ later) ->
  Forall (fun o => match o with RProcess c _ => 1 <= c | _ => True end) rops -> 1 <= c ->
  snd (rstep (fst (rrun (Some renderer_new) rops)) (RProcess c n)) = RHeard (map (to_hear rops n) (seq 0 c)).
Proof.
  intros Ev W (later & E) Fo C. apply heard; [|exact C]. pose proof (posts_proper e ops p Ev W) as F. rewrite E in F. apply Forall_app in F. destruct F as [F _].
  clear E. revert F. induction Fo as [|o rops Ho Fo IH]; intros F; [constructor|]. destruct o as [m|c' n']; cbn [received flat_map app] in F.
  - constructor; [exact (Forall_inv F)|]. apply IH. exact (Forall_inv_tail F).
  - constructor; [exact Ho|]. apply IH. exact F.
Qed.

Lemma resample_times e to from n c ds : 1 <= n -> Forall (fun d => ad_frames d = n) ds -> forall m, In m (resampled e to from n c ds) ->
  exists k, k < samples ds / n /\ ms_time m = N.modulo (time_at (k * n) ds) (2 ^ 64) /\
    ms_channels m = en_out e (Resampler to from n c (map (fun k => chunk n c k ds) (seq 0 (S k)))).
Proof.
  intros Pn F m I. unfold resampled in I. apply in_flat_map in I. destruct I as (k & Ik & I). apply in_seq in Ik. exists k. split; [lia|].
  destruct (Nat.eqb _ 0); [contradiction|]. destruct I as [<-|[]]. cbn [ms_time ms_channels]. split; [|reflexivity]. rewrite (time_same n ds Pn F); [reflexivity|].
  assert (Es : samples ds = length ds * n).
  { clear -F. induction F as [|d ds E _ IH]; [reflexivity|]. rewrite samples_cons, IH, E. reflexivity. }
  rewrite Es, Nat.div_mul in Ik by lia. lia.
Qed.
