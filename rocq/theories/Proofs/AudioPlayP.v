(** The audio worklet plays what it has to. *)
From Coq Require Import NArith List Bool Arith Lia.
From Verif.Model Require Import Base Audio.
From Verif.Spec Require Import AudioSpec.
Import ListNotations.
Open Scope nat_scope.

Lemma total_app a b : total (a ++ b) = total a + total b.
Proof. unfold total. rewrite map_app, list_sum_app. reflexivity. Qed.
Lemma total_cons m l : total (m :: l) = size m + total l.
Proof. reflexivity. Qed.

Lemma proper_lane m i : proper m -> length (lane i m) = size m.
Proof.
  intros [_ F]. unfold lane. destruct (nth_in_or_default i (ms_channels m) (repeat 0%N (size m))) as [I|E].
  - rewrite Forall_forall in F. exact (F _ I).
  - rewrite E. apply repeat_length.
Qed.
Lemma lanes_length i ms : Forall proper ms -> length (concat (map (lane i) ms)) = total ms.
Proof. induction 1 as [|m ms P _ IH]; [reflexivity|]. cbn [map concat]. rewrite app_length, IH, (proper_lane m i P). reflexivity. Qed.

Lemma finished_at done pend pos : Forall proper done -> match pend with [] => pos = 0 | m :: _ => pos < size m end ->
  finished (total done + pos) (done ++ pend) = length done.
Proof.
  intros F. revert pos. induction F as [|m done P _ IH]; intros pos H.
  - cbn [total map list_sum app length]. destruct pend as [|x pend]; [reflexivity|]. change (total [] + pos) with pos. cbn [finished].
    apply Nat.leb_gt in H. rewrite H. reflexivity.
  - cbn [app finished length]. rewrite total_cons. replace (size m + total done + pos - size m) with (total done + pos) by lia.
    destruct (Nat.leb_spec (size m) (size m + total done + pos)); [|lia]. rewrite (IH pos H). reflexivity.
Qed.

(** * One call *)

Definition zeros (k : nat) : list sample := repeat 0%N k.
Lemma zeros_skip k n : skipn k (zeros n) = zeros (n - k).
Proof. unfold zeros. revert n. induction k as [|k IH]; intros [|n]; cbn [skipn repeat Nat.sub]; auto. Qed.

Definition part (pos k : nat) (ch : list sample) : list sample := firstn k (skipn pos ch).
Lemma part_length pos k ch : length (part pos k ch) = Nat.min k (length ch - pos).
Proof. unfold part. rewrite firstn_length, skipn_length. reflexivity. Qed.

Lemma copy_spec pos offset n z : offset <= n -> pos <= z -> forall outs chans w,
  Forall (fun o => length o = n) outs -> Forall (fun c => length c = z) chans ->
  let x := copy_channels pos offset outs chans w in
  length (fst x) = length outs /\
  (forall j, j < length outs -> nth j (fst x) [] =
     match nth_error chans j with Some ch => set_at (nth j outs []) offset (part pos (n - offset) ch) | None => nth j outs [] end) /\
  snd x = match outs, chans with _ :: _, _ :: _ => Nat.min (n - offset) (z - pos) | _, _ => w end.
Proof.
  intros Ho Hp. induction outs as [|o outs IH]; intros chans w Fo Fc; cbn [copy_channels].
  - cbn. split; [reflexivity|]. split; [intros j L; inversion L|]. destruct chans; reflexivity.
  - destruct chans as [|ch chans].
    + cbn. split; [reflexivity|]. split; [|reflexivity]. intros j L. destruct j; destruct (nth_error _ _) eqn:E; try discriminate E; try reflexivity; destruct j; discriminate E.
    + inversion Fo as [|? ? Lo Fo']; subst. inversion Fc as [|? ? Lc Fc']; subst.
      assert (Ecur : firstn (Nat.min (pos + length o - offset) (length ch) - pos) (skipn pos ch) = part pos (length o - offset) ch).
      { unfold part. destruct (Nat.le_gt_cases (length o - offset) (length ch - pos)).
        - f_equal. lia.
        - rewrite !firstn_all2 by (rewrite skipn_length; lia). reflexivity. }
      rewrite Ecur. set (cur := part pos (length o - offset) ch).
      specialize (IH chans (length cur) Fo' Fc'). cbv zeta in IH.
      destruct (copy_channels pos offset outs chans (length cur)) as [outs' w']. cbn [fst snd] in *.
      destruct IH as (L & N & S). cbn [length]. split; [rewrite L; reflexivity|]. split.
      * intros [|j] Lj; [reflexivity|]. cbn [nth nth_error]. apply N. lia.
      * rewrite S. destruct outs, chans; try reflexivity; unfold cur; apply part_length.
Qed.

Lemma nth_all {A} (P : A -> Prop) l d : (forall j, j < length l -> P (nth j l d)) -> Forall P l.
Proof.
  intros H. apply Forall_forall. intros x I. destruct (In_nth l x d I) as (j & L & E). rewrite <- E. apply H. exact L.
Qed.

Definition pending (r : renderer) : list message := match re_current r with None => [] | Some m => m :: re_queued r end.
Record holds (r : renderer) : Prop := {
  ho_none : re_current r = None -> re_pos r = 0 /\ re_queued r = [];
  ho_pos : match pending r with [] => re_pos r = 0 | m :: _ => re_pos r < size m end;
  ho_proper : Forall proper (pending r) }.

Lemma holds_new : holds renderer_new.
Proof. split; cbn; auto. Qed.

Lemma render_full fuel r outs n : render fuel r outs n n = Some (r, outs).
Proof. destruct fuel; cbn [render]; destruct (re_current r); try reflexivity; rewrite Nat.ltb_irrefl; reflexivity. Qed.

Lemma holds_next q : Forall proper q -> holds (match q with [] => Renderer None 0 [] | m :: qs => Renderer (Some m) 0 qs end) /\
  pending (match q with [] => Renderer None 0 [] | m :: qs => Renderer (Some m) 0 qs end) = q /\
  re_pos (match q with [] => Renderer None 0 [] | m :: qs => Renderer (Some m) 0 qs end) = 0.
Proof.
  intros F. destruct q as [|m qs]; (split; [|split; reflexivity]); split; cbn; auto; try discriminate.
  inversion F as [|? ? [P _] _]; subst. lia.
Qed.

Lemma render_ok n c : 1 <= c -> forall fuel r outs offset W, holds r -> length (pending r) < fuel -> offset <= n -> length outs = c ->
  (forall j, j < c -> nth j outs [] = W j ++ zeros (n - offset) /\ length (W j) = offset) ->
  exists r' outs' done, render fuel r outs n offset = Some (r', outs') /\ holds r' /\ pending r = done ++ pending r' /\
    length (pending r') <= length (pending r) /\
    total done + re_pos r' = re_pos r + Nat.min (n - offset) (total (pending r) - re_pos r) /\ length outs' = c /\
    forall j, j < c -> nth j outs' [] =
      W j ++ (let s := firstn (n - offset) (skipn (re_pos r) (concat (map (lane j) (pending r)))) in s ++ zeros (n - offset - length s)).
Proof.
  intros C. induction fuel as [|fuel IH]; intros r outs offset W Ho Fu Le Lo Hw; [lia|].
  cbn [render]. destruct (re_current r) as [m|] eqn:Ec.
  2:{ destruct (ho_none _ Ho Ec) as [Ep Eq]. exists r, outs, []. unfold pending in *. rewrite Ec in *. split; [reflexivity|]. split; [exact Ho|].
      split; [reflexivity|]. split; [lia|]. split; [cbn; lia|]. split; [exact Lo|]. intros j Lj. destruct (Hw j Lj) as [-> _].
      rewrite Ep. cbn [map concat skipn]. rewrite firstn_nil. cbn. rewrite Nat.sub_0_r. reflexivity. }
  assert (Ep : pending r = m :: re_queued r) by (unfold pending; rewrite Ec; reflexivity).
  pose proof (ho_pos _ Ho) as Hp. rewrite Ep in Hp. pose proof (ho_proper _ Ho) as Fp. rewrite Ep in Fp.
  pose proof (Forall_inv Fp) as Pm. pose proof (Forall_inv_tail Fp) as Fq.
  destruct (Nat.ltb_spec offset n) as [Lt|Ge].
  2:{ assert (offset = n) by lia. subst offset. rewrite Nat.sub_diag. exists r, outs, []. split; [reflexivity|]. split; [exact Ho|]. split; [reflexivity|]. split; [lia|].
      split; [cbn; lia|]. split; [exact Lo|]. intros j Lj. destruct (Hw j Lj) as [-> _]. rewrite Nat.sub_diag. cbn. rewrite ?app_nil_r. reflexivity. }
  assert (Fo : Forall (fun o => length o = n) outs).
  { apply (nth_all _ outs []). intros j Lj. rewrite Lo in Lj. destruct (Hw j Lj) as [-> E]. rewrite app_length, E. unfold zeros. rewrite repeat_length. lia. }
  destruct (copy_spec (re_pos r) offset n (size m) ltac:(lia) ltac:(lia) outs (ms_channels m) 0 Fo (proj2 Pm)) as (L1 & N1 & W1).
  destruct (copy_channels (re_pos r) offset outs (ms_channels m) 0) as [outs1 written] eqn:Ecp. cbn [fst snd] in L1, N1, W1.
  destruct (ms_channels m) as [|c0 cs] eqn:Em; [destruct Pm as [Z _]; unfold size in Z; rewrite Em in Z; lia|].
  assert (Ew : written = Nat.min (n - offset) (size m - re_pos r)) by (destruct outs; [cbn in Lo; lia|exact W1]).
  assert (Sz : length c0 = size m) by (unfold size; rewrite Em; reflexivity). rewrite Sz.
  assert (Hw1 : forall j, j < c -> nth j outs1 [] = (W j ++ part (re_pos r) (n - offset) (lane j m)) ++ zeros (n - (offset + written)) /\
                                length (W j ++ part (re_pos r) (n - offset) (lane j m)) = offset + written).
  { rewrite <- Lo. intros j Lj. destruct (Hw j ltac:(lia)) as [Ej Lj']. pose proof (proper_lane m j Pm) as Ll.
    split; [|rewrite app_length, part_length, Ll, Lj'; lia].
    rewrite (N1 j Lj), Ej. unfold lane. destruct (nth_error (c0 :: cs) j) as [ch|] eqn:Ech.
    - rewrite Em, (nth_error_nth _ _ _ Ech). assert (Lc : length ch = size m).
      { destruct Pm as [_ F]. rewrite Em in F. rewrite Forall_forall in F. apply F. eapply nth_error_In. exact Ech. }
      unfold set_at. rewrite firstn_app, Lj', Nat.sub_diag, firstn_O, app_nil_r, firstn_all2 by lia. rewrite <- app_assoc. f_equal. f_equal.
      rewrite part_length, Lc, skipn_app, Lj', (skipn_all2 (W j)) by lia. cbn [app]. rewrite zeros_skip. f_equal. lia.
    - apply nth_error_None in Ech. rewrite Em, nth_overflow by exact Ech. rewrite <- app_assoc. f_equal. unfold part. fold (zeros (size m)). rewrite zeros_skip.
      assert (E : firstn (n - offset) (zeros (size m - re_pos r)) = zeros written).
      { rewrite Ew. unfold zeros. clear. generalize (n - offset) (size m - re_pos r). induction n0 as [|a IH]; intros [|b]; cbn; auto. f_equal. apply IH. }
      rewrite E. unfold zeros. rewrite <- repeat_app. f_equal. lia. }
  assert (Lane : forall j, skipn (re_pos r) (concat (map (lane j) (pending r))) = skipn (re_pos r) (lane j m) ++ concat (map (lane j) (re_queued r))).
  { intros j. rewrite Ep. cbn [map concat]. rewrite skipn_app, (proper_lane m j Pm). replace (re_pos r - size m) with 0 by lia. reflexivity. }
  assert (Tq : total (pending r) = size m + total (re_queued r)) by (rewrite Ep; reflexivity).
  destruct (Nat.leb_spec (size m) (re_pos r + written)) as [Over|In].
  - (* on to the next message *)
    assert (Ew' : written = size m - re_pos r) by lia.
    assert (Go : exists r' outs' done,
      render fuel (match re_queued r with [] => Renderer None 0 [] | q :: qs => Renderer (Some q) 0 qs end) outs1 n (offset + written) = Some (r', outs') /\
      holds r' /\ re_queued r = done ++ pending r' /\ length (pending r') <= length (re_queued r) /\
      total done + re_pos r' = Nat.min (n - (offset + written)) (total (re_queued r)) /\ length outs' = c /\
      forall j, j < c -> nth j outs' [] = (W j ++ part (re_pos r) (n - offset) (lane j m)) ++
        (let s := firstn (n - (offset + written)) (concat (map (lane j) (re_queued r))) in s ++ zeros (n - (offset + written) - length s))).
    { destruct (holds_next (re_queued r) Fq) as (Hn & Pn & Zn).
      destruct (IH _ outs1 (offset + written) (fun j => W j ++ part (re_pos r) (n - offset) (lane j m)) Hn) as (r' & outs' & done & A1 & A2 & A3 & A4 & A5 & A6 & A7); auto.
      - rewrite Pn. rewrite Ep in Fu. cbn in Fu. lia.
      - lia.
      - congruence.
      - rewrite Pn, Zn in *. exists r', outs', done. split; [exact A1|]. split; [exact A2|]. split; [exact A3|]. split; [exact A4|]. split; [lia|]. split; [exact A6|exact A7]. }
    destruct Go as (r' & outs' & done & A1 & A2 & A3 & A4 & A5 & A6 & A7). exists r', outs', (m :: done).
    split; [destruct (re_queued r); exact A1|]. split; [exact A2|]. split; [rewrite Ep, A3; reflexivity|]. split; [rewrite Ep; cbn; lia|].
    split; [rewrite total_cons, Tq; lia|]. split; [exact A6|]. intros j Lj. rewrite (A7 j Lj), <- app_assoc, Lane. f_equal. cbv zeta.
    pose proof (proper_lane m j Pm) as Ll.
    rewrite firstn_app, skipn_length, Ll, (firstn_all2 (skipn (re_pos r) (lane j m))) by (rewrite skipn_length; lia).
    unfold part. rewrite (firstn_all2 (skipn (re_pos r) (lane j m))) by (rewrite skipn_length; lia). rewrite <- app_assoc. f_equal.
    rewrite app_length, skipn_length, Ll. replace (n - offset - (size m - re_pos r)) with (n - (offset + written)) by lia. f_equal. f_equal. lia.
  - (* the output is full *)
    assert (Ew' : written = n - offset) by lia. replace (offset + written) with n in * by lia. rewrite render_full.
    exists (Renderer (Some m) (re_pos r + written) (re_queued r)), outs1, []. split; [reflexivity|].
    split; [split; cbn [re_current re_pos re_queued pending]; [discriminate|exact In|exact Fp]|]. split; [rewrite Ep; reflexivity|]. split; [rewrite Ep; cbn; lia|].
    split; [cbn [re_pos]; rewrite Tq; cbn; lia|]. split; [congruence|]. intros j Lj. destruct (Hw1 j Lj) as [-> _]. rewrite Lane, <- app_assoc. f_equal. cbv zeta.
    pose proof (proper_lane m j Pm) as Ll. rewrite firstn_app, skipn_length, Ll. replace (n - offset - (size m - re_pos r)) with 0 by lia.
    rewrite firstn_O, app_nil_r. unfold part. f_equal. f_equal. rewrite firstn_length, skipn_length. lia.
Qed.

(** * All calls *)

Record plays (k : list message * nat) (r : renderer) : Prop := {
  pl_holds : holds r;
  pl_done : exists done, fst k = done ++ pending r /\ snd k = total done + re_pos r;
  pl_proper : Forall proper (fst k);
  pl_few : length (pending r) <= 5 }.

Lemma plays_new : plays ([], 0) renderer_new.
Proof. split; [apply holds_new|exists []; auto|constructor|cbn; lia]. Qed.

Lemma plays_finished ms p r : plays (ms, p) r -> exists done, ms = done ++ pending r /\ p = total done + re_pos r /\ finished p ms = length done.
Proof.
  intros [Ho (done & E & Ep) F _]. cbn [fst snd] in *. exists done. split; [exact E|]. split; [exact Ep|]. rewrite E, Ep. apply finished_at.
  - rewrite E in F. apply Forall_app in F. apply F.
  - apply Ho.
Qed.

Lemma play_message ms p r m : proper m -> plays (ms, p) r -> plays (account (ms, p) (RMessage m)) (on_frame r m).
Proof.
  intros Pm K. destruct (plays_finished ms p r K) as (done & E & Ep & Ef). destruct K as [Ho _ F Few]. cbn [fst snd account] in *. rewrite Ef.
  assert (Ll : length ms - length done = length (pending r)) by (rewrite E, app_length; lia). rewrite Ll.
  unfold on_frame. destruct (re_current r) as [x|] eqn:Ec.
  - assert (Pe : pending r = x :: re_queued r) by (unfold pending; rewrite Ec; reflexivity). rewrite Pe in *. cbn [length].
    pose proof (ho_pos _ Ho) as Hp. rewrite Pe in Hp.
    destruct (Nat.ltb_spec (length (re_queued r)) 4) as [Lt|Ge]; destruct (Nat.ltb_spec (S (length (re_queued r))) 5); try lia.
    + split; cbn [fst snd].
      * split; cbn; [discriminate|exact Hp|]. pose proof (ho_proper _ Ho) as Fp. rewrite Pe in Fp. inversion Fp; subst. constructor; [assumption|]. apply Forall_app. auto.
      * exists done. rewrite E, <- app_assoc. auto.
      * apply Forall_app. auto.
      * cbn. rewrite app_length. cbn. lia.
    + pose proof (ho_proper _ Ho) as Fp. rewrite Pe in Fp. inversion Fp; subst.
      assert (Fi : firstn (S (length done)) (done ++ x :: re_queued r) = done ++ [x]).
      { rewrite firstn_app, firstn_all2 by lia. replace (S (length done) - length done) with 1 by lia. reflexivity. }
      rewrite Fi. split; cbn [fst snd].
      * split; cbn; [discriminate|exact Hp|]. auto.
      * exists done. rewrite <- app_assoc. auto.
      * apply Forall_app in F. rewrite !Forall_app. intuition.
      * cbn. lia.
  - destruct (ho_none _ Ho Ec) as [Z Q]. assert (Pe : pending r = []) by (unfold pending; rewrite Ec; reflexivity). rewrite Pe in *. cbn [length Nat.ltb Nat.leb].
    rewrite Z, Q. split; cbn [fst snd].
    + split; cbn; [discriminate|apply Pm|auto].
    + exists done. rewrite E, app_nil_r, Ep, Z. auto.
    + apply Forall_app. auto.
    + cbn. lia.
Qed.

Lemma list_nth_ext {A} (a b : list A) d : length a = length b -> (forall j, j < length a -> nth j a d = nth j b d) -> a = b.
Proof. intros L H. apply (nth_ext a b d d L H). Qed.

Lemma play_process ms p r c n : 1 <= c -> plays (ms, p) r ->
  exists r', process r c n = Some (r', map (fun i => let s := firstn n (skipn p (concat (map (lane i) ms))) in s ++ repeat 0%N (n - length s)) (seq 0 c)) /\
    plays (account (ms, p) (RProcess c n)) r'.
Proof.
  intros C K. destruct K as [Ho (done & E & Ep) F Few]. cbn [fst snd account] in *.
  assert (G : exists r' outs', process r c n = Some (r', outs') /\ (exists d2, holds r' /\ pending r = d2 ++ pending r' /\ length (pending r') <= length (pending r) /\
      total d2 + re_pos r' = re_pos r + Nat.min n (total (pending r) - re_pos r)) /\ length outs' = c /\
      forall j, j < c -> nth j outs' [] = let s := firstn n (skipn (re_pos r) (concat (map (lane j) (pending r)))) in s ++ zeros (n - length s)).
  { unfold process. destruct (re_current r) as [m|] eqn:Ec.
    - destruct c as [|c']; [lia|].
      destruct (render_ok n (S c') C (S (S (length (re_queued r)))) r (repeat (repeat 0%N n) (S c')) 0 (fun _ => []) Ho) as (r' & outs' & d2 & A1 & A2 & A3 & A4 & A5 & A6 & A7).
      + unfold pending. rewrite Ec. cbn. lia.
      + lia.
      + apply repeat_length.
      + intros j Lj. rewrite Nat.sub_0_r. split; [|reflexivity]. cbn [app].
        assert (I : In (nth j (repeat (repeat 0%N n) (S c')) []) (repeat (repeat 0%N n) (S c'))) by (apply nth_In; rewrite repeat_length; exact Lj).
        exact (repeat_spec _ _ _ I).
      + exists r', outs'. split; [exact A1|]. split; [exists d2; rewrite Nat.sub_0_r in A5; auto|]. split; [exact A6|].
        intros j Lj. rewrite (A7 j Lj), Nat.sub_0_r. reflexivity.
    - destruct (ho_none _ Ho Ec) as [Z Q]. assert (Pe : pending r = []) by (unfold pending; rewrite Ec; reflexivity).
      exists r, (repeat (repeat 0%N n) c). split; [reflexivity|]. split; [exists []; rewrite Pe, Z; cbn; split; [exact Ho|]; split; [reflexivity|split; [lia|lia]]|].
      split; [apply repeat_length|]. intros j Lj. rewrite Pe. cbn [map concat]. rewrite skipn_nil, firstn_nil. cbn [app length]. rewrite Nat.sub_0_r.
      assert (I : In (nth j (repeat (repeat 0%N n) c) []) (repeat (repeat 0%N n) c)) by (apply nth_In; rewrite repeat_length; exact Lj).
      exact (repeat_spec _ _ _ I). }
  destruct G as (r' & outs' & Ex & (d2 & H' & Pd & Lp & Tp) & Lc & Nth). exists r'.
  assert (Fd : Forall proper done) by (rewrite E in F; apply Forall_app in F; apply F).
  split.
  - rewrite Ex. f_equal. f_equal. apply (list_nth_ext _ _ []); [rewrite map_length, seq_length; exact Lc|].
    intros j Lj. rewrite Lc in Lj. rewrite (Nth j Lj).
    assert (Nm : forall (f : nat -> list sample) k, k < c -> nth k (map f (seq 0 c)) [] = f k).
    { intros f k Lk. rewrite (nth_indep _ [] (f 0)) by (rewrite map_length, seq_length; exact Lk). rewrite map_nth, seq_nth by exact Lk. reflexivity. }
    rewrite Nm by exact Lj. cbv zeta.
    assert (Es : skipn p (concat (map (lane j) ms)) = skipn (re_pos r) (concat (map (lane j) (pending r)))).
    { rewrite E, map_app, concat_app, skipn_app, (lanes_length j done Fd), Ep, (skipn_all2 (concat (map (lane j) done))) by (rewrite (lanes_length j done Fd); lia).
      cbn [app]. f_equal. lia. }
    rewrite Es. reflexivity.
  - split; cbn [fst snd].
    + exact H'.
    + exists (done ++ d2). split; [rewrite E, Pd, app_assoc; reflexivity|]. rewrite E, !total_app. lia.
    + exact F.
    + lia.
Qed.

Lemma accounts_snoc ops o : accounts (ops ++ [o]) = account (accounts ops) o.
Proof. unfold accounts. rewrite fold_left_app. reflexivity. Qed.

Lemma rrun_snoc ops o : forall r, rrun r (ops ++ [o]) = let (r1, tr) := rrun r ops in let (r2, x) := rstep r1 o in (r2, tr ++ [(o, x)]).
Proof.
  induction ops as [|o' ops IH]; intros r; cbn [app rrun].
  - destruct (rstep r o). reflexivity.
  - destruct (rstep r o') as [r1 x]. rewrite IH. destruct (rrun r1 ops) as [r2 tr]. destruct (rstep r2 o). reflexivity.
Qed.

Lemma plays_run ops : Forall usual ops -> exists r, fst (rrun (Some renderer_new) ops) = Some r /\ plays (accounts ops) r.
Proof.
  induction ops as [|o ops IH] using rev_ind; intros U; [exists renderer_new; split; [reflexivity|apply plays_new]|].
  apply Forall_app in U. destruct U as [U Uo]. inversion Uo as [|? ? Ho _]; subst. destruct (IH U) as (r & E & K).
  rewrite rrun_snoc, accounts_snoc. destruct (rrun (Some renderer_new) ops) as [r1 tr]. cbn [fst] in E. subst r1.
  destruct (accounts ops) as [ms p]. destruct o as [m|c n].
  - cbn [rstep]. exists (on_frame r m). split; [reflexivity|]. apply play_message; assumption.
  - cbn [rstep]. destruct (play_process ms p r c n Ho K) as (r' & Ep & K'). rewrite Ep. exists r'. auto.
Qed.

(** Exactly what is heard. *)
Lemma heard ops c n : Forall usual ops -> 1 <= c ->
  snd (rstep (fst (rrun (Some renderer_new) ops)) (RProcess c n)) = RHeard (map (to_hear ops n) (seq 0 c)).
Proof.
  intros U C. destruct (plays_run ops U) as (r & E & K). rewrite E. cbn [rstep]. destruct (accounts ops) as [ms p] eqn:Ea.
  destruct (play_process ms p r c n C K) as (r' & Ep & _). rewrite Ep. cbn [snd]. f_equal.
  apply map_ext. intros i. unfold to_hear. rewrite Ea. reflexivity.
Qed.

(** * What that means *)

Lemma part_refl {A} (l : list A) : part_of l l.
Proof. induction l; constructor; auto. Qed.
Lemma part_app {A} (a a' b b' : list A) : part_of a a' -> part_of b b' -> part_of (a ++ b) (a' ++ b').
Proof. intros H1 H2. induction H1; cbn [app]; try constructor; auto. Qed.
Lemma part_trans {A} (a b c : list A) : part_of a b -> part_of b c -> part_of a c.
Proof.
  intros H1 H2. revert a H1. induction H2 as [|x b c H IH|x b c H IH]; intros a H1; [exact H1| |constructor; auto].
  inversion H1; subst; constructor; auto.
Qed.
Lemma part_firstn {A} k (l : list A) : part_of (firstn k l) l.
Proof. revert k. induction l as [|x l IH]; intros [|k]; cbn [firstn]; try constructor; auto. clear IH. induction l; constructor; auto. Qed.

Lemma received_app a b : received (a ++ b) = received a ++ received b.
Proof. apply flat_map_app. Qed.

Lemma kept_part ops : part_of (fst (accounts ops)) (received ops).
Proof.
  induction ops as [|o ops IH] using rev_ind; [constructor|]. rewrite accounts_snoc, received_app. destruct (accounts ops) as [ms p]. cbn [fst] in IH.
  destruct o as [m|c n]; cbn [account received flat_map app].
  - destruct (Nat.ltb (length ms - finished p ms) 5); cbn [fst]; apply part_app; try apply part_refl; auto.
    eapply part_trans; [apply part_firstn|exact IH].
  - cbn [fst]. rewrite app_nil_r. exact IH.
Qed.

Lemma newest_kept ops m : exists ms, fst (accounts (ops ++ [RMessage m])) = ms ++ [m].
Proof. rewrite accounts_snoc. destruct (accounts ops) as [ms p]. cbn [account]. destruct (Nat.ltb _ _); cbn [fst]; eauto. Qed.

(** Nothing is lost as long as no message finds five others that are not over. *)
Lemma all_kept ops : (forall a m b, ops = a ++ RMessage m :: b -> length (received a) - finished (snd (accounts a)) (received a) < 5) ->
  fst (accounts ops) = received ops.
Proof.
  induction ops as [|o ops IH] using rev_ind; intros H; [reflexivity|]. rewrite accounts_snoc, received_app.
  assert (E : fst (accounts ops) = received ops).
  { apply IH. intros a m b Eq. apply (H a m (b ++ [o])). rewrite Eq, <- app_assoc. reflexivity. }
  destruct o as [m|c n].
  - specialize (H ops m [] eq_refl). destruct (accounts ops) as [ms p]. cbn [fst snd] in *. subst ms. cbn [account].
    apply Nat.ltb_lt in H. rewrite H. reflexivity.
  - destruct (accounts ops) as [ms p]. cbn [fst account received flat_map] in *. rewrite E. symmetry. apply app_nil_r.
Qed.

Lemma at_most_five ops : Forall usual ops -> let (ms, p) := accounts ops in length ms - finished p ms <= 5.
Proof.
  intros U. destruct (plays_run ops U) as (r & _ & K). destruct (accounts ops) as [ms p].
  destruct (plays_finished ms p r K) as (done & E & _ & ->). rewrite E, app_length. pose proof (pl_few _ _ K). lia.
Qed.

Lemma played_le ops : snd (accounts ops) <= total (fst (accounts ops)).
Proof.
  assert (Fi : forall ms p, p <= total ms -> p <= total (firstn (S (finished p ms)) ms)).
  { induction ms as [|m ms IH]; intros p L; [exact L|]. cbn [finished]. rewrite total_cons in L. destruct (Nat.leb_spec (size m) p).
    - change (firstn (S (S (finished (p - size m) ms))) (m :: ms)) with (m :: firstn (S (finished (p - size m) ms)) ms).
      rewrite total_cons. specialize (IH (p - size m)). lia.
    - cbn [firstn]. rewrite total_cons. lia. }
  induction ops as [|o ops IH] using rev_ind; [cbn; lia|]. rewrite accounts_snoc. destruct (accounts ops) as [ms p]. cbn [fst snd] in IH.
  destruct o as [m|c n]; cbn [account].
  - destruct (Nat.ltb _ _); cbn [fst snd]; rewrite total_app; [lia|]. specialize (Fi ms p IH). lia.
  - cbn [fst snd]. lia.
Qed.

(** Silence is added only when everything has been played. *)
Lemma gap ops n : ahead (ops ++ [RProcess 1 n]) = ahead ops - n.
Proof. unfold ahead. rewrite accounts_snoc. pose proof (played_le ops). destruct (accounts ops) as [ms p]. cbn [account fst snd] in *. lia. Qed.

Lemma to_hear_split ops n i : Forall usual ops -> exists s, to_hear ops n i = s ++ repeat 0%N (n - ahead ops) /\ length s = Nat.min n (ahead ops).
Proof.
  intros U. unfold to_hear, ahead. destruct (plays_run ops U) as (r & _ & K). pose proof (played_le ops) as L. destruct (accounts ops) as [ms p]. cbn [fst snd] in *.
  pose proof (lanes_length i ms (pl_proper _ _ K)) as Ll. eexists. split; [f_equal; f_equal|]; rewrite firstn_length, skipn_length, Ll; lia.
Qed.

(** Times are not looked at. *)
Lemma rrun_timeless ops : forall r r',
  match r, r' with
  | Some r, Some r' => re_pos r = re_pos r' /\ option_map ms_channels (re_current r) = option_map ms_channels (re_current r') /\
                       map ms_channels (re_queued r) = map ms_channels (re_queued r')
  | None, None => True | _, _ => False end ->
  map snd (snd (rrun r ops)) = map snd (snd (rrun r' (map timeless ops))).
Proof.
  assert (Re : forall n fuel r r' outs offset, re_pos r = re_pos r' -> option_map ms_channels (re_current r) = option_map ms_channels (re_current r') ->
    map ms_channels (re_queued r) = map ms_channels (re_queued r') ->
    match render fuel r outs n offset, render fuel r' outs n offset with
    | Some (x, o), Some (x', o') => o = o' /\ re_pos x = re_pos x' /\ option_map ms_channels (re_current x) = option_map ms_channels (re_current x') /\
        map ms_channels (re_queued x) = map ms_channels (re_queued x')
    | None, None => True | _, _ => False end).
  { intros n. induction fuel as [|fuel IH]; intros [cu po qu] [cu' po' qu'] outs offset E1 E2 E3; cbn [re_pos re_current re_queued] in *; subst po'.
    - cbn [render re_current re_queued re_pos]. destruct cu as [m|], cu' as [m'|]; try discriminate E2; [|auto]. destruct (Nat.ltb offset n); auto.
    - cbn [render re_current re_queued re_pos]. destruct cu as [m|], cu' as [m'|]; try discriminate E2; [|auto]. cbn in E2. injection E2 as E2. rewrite <- E2.
      destruct (Nat.ltb offset n); [|cbn; rewrite E2; auto]. destruct (copy_channels po offset outs (ms_channels m) 0) as [outs1 w].
      destruct (ms_channels m) as [|c0 cs] eqn:Em; [exact I|]. destruct (Nat.leb (length c0) (po + w)).
      + destruct qu as [|q qs], qu' as [|q' qs']; try discriminate E3; apply IH; cbn; auto. injection E3 as E3a E3b. rewrite E3a. reflexivity.
        injection E3 as _ E3b. exact E3b.
      + apply IH; cbn; auto. rewrite Em, <- E2. reflexivity. }
  induction ops as [|o ops IH]; intros r r' H; [reflexivity|]. cbn [map rrun].
  assert (S : snd (rstep r o) = snd (rstep r' (timeless o)) /\
    match fst (rstep r o), fst (rstep r' (timeless o)) with
    | Some r, Some r' => re_pos r = re_pos r' /\ option_map ms_channels (re_current r) = option_map ms_channels (re_current r') /\
                         map ms_channels (re_queued r) = map ms_channels (re_queued r')
    | None, None => True | _, _ => False end).
  { destruct r as [[cu po qu]|], r' as [[cu' po' qu']|]; try contradiction.
    - cbn [re_pos re_current re_queued] in H. destruct H as (<- & E2 & E3). assert (Lq : length qu = length qu') by (rewrite <- (map_length ms_channels qu), E3; apply map_length).
      destruct o as [m|c n]; cbn [timeless rstep].
      + split; [reflexivity|]. cbn [fst]. unfold on_frame. cbn [re_current re_pos re_queued]. destruct cu as [x|], cu' as [x'|]; try discriminate E2; cbn [re_current re_pos re_queued option_map map ms_channels]; auto.
        rewrite <- Lq. destruct (Nat.ltb (length qu) 4); cbn [re_current re_pos re_queued map ms_channels]; rewrite ?map_app, ?E3; auto.
      + unfold process. cbn [re_current re_queued]. destruct cu as [x|], cu' as [x'|]; try discriminate E2; [|cbn; auto].
        destruct c as [|c]; [cbn; auto|]. rewrite <- Lq.
        specialize (Re n (S (S (length qu))) (Renderer (Some x) po qu) (Renderer (Some x') po qu') (repeat (repeat 0%N n) (S c)) 0 eq_refl E2 E3).
        destruct (render _ (Renderer (Some x) po qu) _ n 0) as [[y o]|], (render _ (Renderer (Some x') po qu') _ n 0) as [[y' o']|]; try contradiction; cbn [fst snd]; auto.
        destruct Re as (-> & R). auto.
    - destruct o; cbn; auto. }
  destruct S as [S1 S2]. destruct (rstep r o) as [r1 x], (rstep r' (timeless o)) as [r1' x']. cbn [fst snd] in S1, S2. subst x'.
  specialize (IH r1 r1' S2). destruct (rrun r1 ops), (rrun r1' (map timeless ops)). cbn [snd map] in *. rewrite IH. reflexivity.
Qed.
