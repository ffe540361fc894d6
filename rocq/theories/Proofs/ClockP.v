From Coq Require Import NArith ZArith Arith List Lia Bool Sorted.
From Coq Require Import Init.Byte Strings.Byte.
From Verif.Model Require Import Base Clock.
From Verif.Spec Require Import ClockSpec.
Import ListNotations.
Open Scope N_scope.

(** ** Times *)
Lemma digit_N a : a < 10 -> to_N (digit a) = 48 + a.
Proof.
  intros H. assert (a = 0 \/ a = 1 \/ a = 2 \/ a = 3 \/ a = 4 \/ a = 5 \/ a = 6 \/ a = 7 \/ a = 8 \/ a = 9) as K by lia.
  repeat (destruct K as [->|K]; [reflexivity|]). subst. reflexivity.
Qed.
Definition slt (a b : N) : Prop := a / second < b / second.
Definition nom (start : N) (g : nat) : N := match g with O => start | S _ => start / minute * minute + N.of_nat g * minute end.

Lemma minute_pos : minute <> 0. Proof. discriminate. Qed.
Lemma second_pos : second <> 0. Proof. discriminate. Qed.
Lemma mins : minute = 60 * second. Proof. reflexivity. Qed.
Lemma floor_min t : exists r, t = t / minute * minute + r /\ r < minute.
Proof. exists (t mod minute). split; [rewrite N.mul_comm; apply N.div_mod, minute_pos|apply N.mod_lt, minute_pos]. Qed.
Lemma floor_sec t : exists r, t = t / second * second + r /\ r < second.
Proof. exists (t mod second). split; [rewrite N.mul_comm; apply N.div_mod, second_pos|apply N.mod_lt, second_pos]. Qed.
Lemma next_minute_eq t : next_minute t = t / minute * minute + minute.
Proof. unfold next_minute. replace (t + minute) with (t + 1 * minute) by lia. rewrite N.div_add by exact minute_pos. lia. Qed.
Lemma next_second_eq t : next_second t = t / second * second + second.
Proof. unfold next_second. replace (t + second) with (t + 1 * second) by lia. rewrite N.div_add by exact second_pos. lia. Qed.
Lemma nom_minute start g : nom start g / minute = start / minute + N.of_nat g.
Proof.
  destruct g; cbn [nom]; [cbn; lia|]. rewrite <- N.mul_add_distr_r, N.div_mul by exact minute_pos. reflexivity.
Qed.
Lemma nom_next start g : next_minute (nom start g) = nom start (S g).
Proof. rewrite next_minute_eq, nom_minute. cbn [nom]. rewrite !Nat2N.inj_succ. lia. Qed.
Lemma min_of_sec t : t / second / 60 = t / minute.
Proof. rewrite N.div_div by discriminate. reflexivity. Qed.
Lemma slt_minute a b : a / minute < b / minute -> slt a b.
Proof.
  unfold slt. rewrite <- !min_of_sec. intros H. apply N.lt_nge. intros L. apply (N.div_le_mono _ _ 60) in L; [|discriminate]. lia.
Qed.
Lemma slt_trans a b c : slt a b -> slt b c -> slt a c. Proof. unfold slt. lia. Qed.
Lemma slt_next a b : next_second a <= b -> slt a b.
Proof.
  rewrite next_second_eq. intros H. unfold slt. assert ((a / second + 1) * second <= b) as K by lia.
  apply (N.div_le_mono _ _ second) in K; [|exact second_pos]. rewrite N.div_mul in K by exact second_pos. lia.
Qed.
Lemma slt_lt a b : slt a b -> a < b.
Proof. unfold slt. intros H. apply N.lt_nge. intros L. apply (N.div_le_mono _ _ second) in L; [|exact second_pos]. lia. Qed.

Lemma sorted_app (R : N -> N -> Prop) (l1 l2 : list N) :
  StronglySorted R l1 -> StronglySorted R l2 -> Forall (fun a => Forall (R a) l2) l1 -> StronglySorted R (l1 ++ l2).
Proof.
  induction l1 as [|a l1 IH]; cbn; [auto|]. intros S1 S2 F. inversion S1; subst. inversion F; subst. constructor; [auto|].
  apply Forall_app. split; auto.
Qed.
Lemma sorted_firstn (R : N -> N -> Prop) (l : list N) n : StronglySorted R l -> StronglySorted R (firstn n l).
Proof.
  revert n. induction l as [|a l IH]; intros [|n] S; cbn; try constructor; inversion S; subst; auto.
  apply Forall_forall. intros x I. rewrite Forall_forall in H2. apply H2. rewrite <- (firstn_skipn n l). apply in_or_app. auto.
Qed.
Lemma sorted_nth (R : N -> N -> Prop) (l : list N) i : forall j x y, StronglySorted R l -> nth_error l i = Some x -> nth_error l j = Some y -> (i < j)%nat -> R x y.
Proof.
  revert i. induction l as [|a l IH]; intros [|i] [|j] x y S E F L; cbn in *; try discriminate; try lia; inversion S as [|? ? S1 S2]; subst.
  - injection E as <-. rewrite Forall_forall in S2. apply S2. eapply nth_error_In; eauto.
  - eapply IH; eauto. lia.
Qed.

Lemma nth_error_nil {A} n : nth_error (@nil A) n = None. Proof. destruct n; reflexivity. Qed.
Lemma put_same {A} n (x : A) l y : nth_error l n = Some y -> nth_error (put n x l) n = Some x.
Proof.
  unfold put. revert l. induction n; intros [|z l] E; cbn in *; try discriminate; auto.
Qed.
Lemma put_other {A} n m (x : A) l y : nth_error l n = Some y -> n <> m -> nth_error (put n x l) m = nth_error l m.
Proof.
  unfold put. revert l m. induction n; intros [|z l] [|m] E K; cbn in *; try discriminate; try congruence; auto.
Qed.
Lemma put_length {A} n (x : A) l y : nth_error l n = Some y -> length (put n x l) = length l.
Proof.
  unfold put. revert l. induction n; intros [|z l] E; cbn in *; try discriminate; auto.
Qed.

(** ** The publisher *)
Section Runs.
  Context (text : N -> bytes) (w : N).

  (** The times of the lines of group [g]. *)
  Definition times (start : N) (g : nat) (tr : list kevent) : list N :=
    concat (map (fun e : kevent => match snd e with
      | KWrote g1 fs => if Nat.eqb g1 g then match fs with [_] => [snd (fst e)] | _ => [nom start g] end else []
      | _ => [] end) tr).
  Lemma times_app start g tr1 tr2 : times start g (tr1 ++ tr2) = times start g tr1 ++ times start g tr2.
  Proof. unfold times. rewrite map_app, concat_app. reflexivity. Qed.

  Record segok (start : N) (mono : N) (tr : list kevent) (g : nat) (x : segment) : Prop := SegOk {
    so_seq : sg_seq x = minute_of start + N.of_nat g;
    so_state : match sg_wake x with
               | None => sg_frames x = [] /\ sg_done x = false /\ sg_now x = nom start g /\ times start g tr = []
               | Some k => sg_frames x = text (nom start g / minute) :: map delta_of (times start g tr) /\
                           (exists rest, times start g tr = nom start g :: rest) /\
                           (exists past, times start g tr = past ++ [sg_now x]) /\
                           next_second (sg_now x) <= w + k /\
                           exists op t0 d0, In (op, t0, KWrote g [text (nom start g / minute); d0]) tr
               end;
    so_sorted : StronglySorted slt (times start g tr);
    so_minutes : Forall (fun t => minute_of t = minute_of (nom start g) /\ nom start g <= t <= w + mono) (times start g tr);
    so_nom : nom start g + delays tr g <= w + mono }.

  (** What an event says. *)
  Definition evok (start : N) (tr : list kevent) (e : kevent) : Prop :=
    match snd e with
    | KMade g _ => snd (fst e) = nom start g + delays tr g
    | KWrote g [b; d] => b = text (nom start g / minute) /\ d = delta_of (nom start g) /\ nom start g + delays tr g <= snd (fst e)
    | KWrote g [d] => d = delta_of (snd (fst e)) /\ minute_of (snd (fst e)) = minute_of (nom start g) /\ nom start g <= snd (fst e)
    | KWrote _ _ | KPanic => False
    | _ => True
    end.

  Record inv (start : N) (tr : list kevent) (s : clock) : Prop := Inv {
    i_wall : ck_wall s = w + ck_mono s;
    i_run : match ck_run s with
            | TIdle => ck_segs s = [] /\ (forall g, delays tr g = 0) /\ (forall st g, times st g tr = []) /\ (forall st e, In e tr -> evok st tr e)
            | TSleep next wake seq => ck_segs s <> [] /\ next = nom start (length (ck_segs s)) /\ seq = minute_of start + N.of_nat (length (ck_segs s)) /\
                                      w + wake = next + delays tr (length (ck_segs s))
            | TDead => False
            end;
    i_segs : forall g x, nth_error (ck_segs s) g = Some x -> segok start (ck_mono s) tr g x;
    i_made : forall op t g late, In (op, t, KMade g late) tr -> (g < length (ck_segs s))%nat;
    i_wrote : forall op t g fs, In (op, t, KWrote g fs) tr -> (g < length (ck_segs s))%nat;
    i_ev : forall e, In e tr -> evok start tr e }.

  Lemma delays_app tr e g : delays (tr ++ [e]) g = delays tr g + match snd e with KMade g1 late => if Nat.leb g1 g then late else 0 | _ => 0 end.
  Proof.
    unfold delays. rewrite map_app, fold_right_app. cbn [map fold_right].
    generalize (match snd e with KMade g1 late => if Nat.leb g1 g then late else 0 | _ => 0 end). intros a.
    induction tr as [|x tr IH]; cbn [map fold_right]; [lia|]. rewrite IH. lia.
  Qed.
  Lemma delays_beyond tr n : (forall op t g late, In (op, t, KMade g late) tr -> (g < n)%nat) -> forall g, (n <= S g)%nat -> delays tr g = delays tr n.
  Proof.
    intros H g L. unfold delays. f_equal. apply map_ext_in. intros [[op t] x] I. destruct x; auto. cbn.
    specialize (H _ _ _ _ I). rewrite !(proj2 (Nat.leb_le _ _)); auto; lia.
  Qed.
  Lemma times_one start g tr e : times start g (tr ++ [e]) = times start g tr ++ match snd e with
      | KWrote g1 fs => if Nat.eqb g1 g then match fs with [_] => [snd (fst e)] | _ => [nom start g] end else []
      | _ => [] end.
  Proof. rewrite times_app. unfold times at 2. cbn [map concat]. rewrite app_nil_r. reflexivity. Qed.

  (** An event that creates no group and writes nothing. *)
  Definition dull (x : kout) : Prop := match x with KMade _ _ | KWrote _ _ | KPanic => False | _ => True end.
  Lemma dull_delays tr op t x g : dull x -> delays (tr ++ [(op, t, x)]) g = delays tr g.
  Proof. intros D. rewrite delays_app. destruct x; try contradiction; cbn; lia. Qed.
  Lemma dull_times tr op t x st g : dull x -> times st g (tr ++ [(op, t, x)]) = times st g tr.
  Proof. intros D. rewrite times_one. destruct x; try contradiction; cbn; apply app_nil_r. Qed.
  Lemma evok_delays st tr tr' e : (forall g, (exists op t late, e = (op, t, KMade g late)) \/ (exists op t fs, e = (op, t, KWrote g fs)) -> delays tr' g = delays tr g) ->
    evok st tr e -> evok st tr' e.
  Proof.
    unfold evok. destruct e as [[op t] x]. cbn. destruct x as [| |g late|g fs| | |]; auto.
    - intros H E. rewrite H; [exact E|]. left. eauto.
    - intros H E. destruct fs as [|b [|d [|]]]; auto. rewrite H; [exact E|]. right. eauto.
  Qed.
  Lemma dull_evok st tr op t x e : dull x -> evok st tr e -> evok st (tr ++ [(op, t, x)]) e.
  Proof. intros D. apply evok_delays. intros g _. apply dull_delays, D. Qed.

  Lemma segok_later st mono mono' tr g x : mono <= mono' -> segok st mono tr g x -> segok st mono' tr g x.
  Proof.
    intros L [A B C D E]. constructor; auto; [|lia]. eapply Forall_impl; [|exact D]. cbn. intros t [K1 K2]. split; [exact K1|lia].
  Qed.
  Lemma segok_dull st mono tr op t x g y : dull x -> segok st mono tr g y -> segok st mono (tr ++ [(op, t, x)]) g y.
  Proof.
    intros Du [A B C D E]. constructor; auto; rewrite ?(dull_times _ _ _ _ _ _ Du); auto; try rewrite (dull_delays _ _ _ _ _ Du); auto.
    destruct (sg_wake y); auto. destruct B as (B1 & B2 & B3 & B4 & op0 & t0 & d0 & B5). repeat (split; [assumption|]). exists op0, t0, d0. apply in_or_app. auto.
  Qed.

  Lemma inv_dull st tr s s' op x : inv st tr s -> dull x -> ck_mono s <= ck_mono s' -> ck_wall s' = w + ck_mono s' -> ck_run s' = ck_run s -> ck_segs s' = ck_segs s ->
    inv st (tr ++ [(op, ck_wall s, x)]) s'.
  Proof.
    intros [A B C D D2 E] Du L W R G. constructor; auto.
    - rewrite R, G. destruct (ck_run s); auto.
      + destruct B as (B1 & B2 & B3 & B4). repeat split; auto.
        * intros g. rewrite dull_delays; auto.
        * intros st' g. rewrite dull_times; auto.
        * intros st' e I. apply in_app_iff in I. destruct I as [I|[<-|[]]]; [apply dull_evok; auto|]. destruct x; try contradiction; exact Logic.I.
      + rewrite dull_delays; auto.
    - intros g y. rewrite G. intros N. apply segok_dull; auto. eapply segok_later; [exact L|]. auto.
    - intros op1 t g late I. rewrite G. apply in_app_iff in I. destruct I as [I|[[= <- <- ->]|[]]]; [eauto|contradiction].
    - intros op1 t g fs I. rewrite G. apply in_app_iff in I. destruct I as [I|[[= <- <- ->]|[]]]; [eauto|contradiction].
    - intros e I. apply in_app_iff in I. destruct I as [I|[<-|[]]]; [apply dull_evok; auto|]. destruct x; try contradiction; exact Logic.I.
  Qed.

  (** A group is created. *)
  Lemma inv_made st tr s now seq late s' x :
    ck_wall s = w + ck_mono s ->
    now = nom st (length (ck_segs s)) -> seq = minute_of st + N.of_nat (length (ck_segs s)) ->
    w + ck_mono s = now + delays tr (length (ck_segs s)) + late ->
    (forall g x, nth_error (ck_segs s) g = Some x -> segok st (ck_mono s) tr g x) ->
    (forall op t g late, In (op, t, KMade g late) tr -> (g < length (ck_segs s))%nat) ->
    (forall op t g fs, In (op, t, KWrote g fs) tr -> (g < length (ck_segs s))%nat) ->
    (forall e, In e tr -> evok st tr e) ->
    turn s now seq late = (s', x) -> inv st (tr ++ [(KRun, ck_wall s, x)]) s' /\ ck_reader s' = ck_reader s.
  Proof.
    intros A Hn Hq Hw C D D2 E T. unfold turn in T.
    assert (F : match rev (ck_segs s) with latest :: _ => sg_seq latest <? seq | [] => true end = true).
    { destruct (rev (ck_segs s)) as [|y r] eqn:R; [reflexivity|]. apply (f_equal (@rev _)) in R. rewrite rev_involutive in R. cbn in R.
      assert (nth_error (ck_segs s) (length (rev r)) = Some y) as N by (rewrite R, nth_error_app2, Nat.sub_diag by lia; reflexivity).
      rewrite (so_seq _ _ _ _ _ (C _ _ N)). apply N.ltb_lt. rewrite Hq. rewrite R, app_length. cbn. lia. }
    rewrite F in T. injection T as <- <-. split; [|reflexivity].
    set (n := length (ck_segs s)) in *.
    assert (DL : forall g, (g < n)%nat -> delays (tr ++ [(KRun, ck_wall s, KMade n late)]) g = delays tr g).
    { intros g L. rewrite delays_app. cbn. rewrite (proj2 (Nat.leb_gt _ _)) by lia. lia. }
    assert (DN : forall g, (n <= g)%nat -> delays (tr ++ [(KRun, ck_wall s, KMade n late)]) g = delays tr n + late).
    { intros g L. rewrite delays_app. cbn. rewrite (proj2 (Nat.leb_le _ _)) by lia. rewrite (delays_beyond tr n); auto. }
    assert (TN : times st n tr = []).
    { unfold times. cut (forall e, In e tr -> match snd e with
        | KWrote g1 fs => if Nat.eqb g1 n then match fs with [_] => [snd (fst e)] | _ => [nom st n] end else []
        | _ => [] end = []).
      { intros K. clear -K. induction tr as [|e tr IH]; [reflexivity|]. cbn [map concat]. rewrite (K e) by (left; reflexivity). cbn. apply IH. intros; apply K; right; auto. }
      intros [[op t] o] I. destruct o; auto. cbn. rewrite (proj2 (Nat.eqb_neq _ _)); [reflexivity|]. specialize (D2 _ _ _ _ I). lia. }
    constructor; cbn.
    - exact A.
    - rewrite app_length. cbn. replace (length (ck_segs s) + 1)%nat with (S n) by (unfold n; lia).
      split; [destruct (ck_segs s); discriminate|]. rewrite Hn, nom_next. split; [reflexivity|]. split; [lia|].
      rewrite (DN (S n)) by lia. assert (nom st n <= nom st (S n)) by (rewrite <- nom_next, next_minute_eq; destruct (floor_min (nom st n)) as (r & E1 & E2); lia). lia.
    - intros g y N. destruct (Nat.lt_ge_cases g n) as [L|L].
      + rewrite nth_error_app1 in N by exact L. destruct (C _ _ N) as [K1 K2 K3 K4 K5].
        constructor; auto; rewrite ?times_one; cbn; rewrite ?app_nil_r; auto; [|rewrite DL; auto].
        destruct (sg_wake y); auto. destruct K2 as (B1 & B2 & B3 & B4 & op0 & t0 & d0 & B5). repeat (split; [assumption|]). exists op0, t0, d0. apply in_or_app. auto.
      + rewrite nth_error_app2 in N by exact L. destruct (g - length (ck_segs s))%nat as [|k] eqn:G; [|destruct k; discriminate].
        cbn in N. injection N as <-. assert (g = n) as -> by (unfold n in *; lia).
        constructor; cbn; rewrite ?times_one; cbn; rewrite ?TN; cbn; auto; try constructor. rewrite DN by lia. lia.
    - intros op t g l I. rewrite app_length. cbn. apply in_app_iff in I. destruct I as [I|[[= <- <- <- <-]|[]]]; [specialize (D _ _ _ _ I); fold n; lia|fold n; lia].
    - intros op t g l I. rewrite app_length. cbn. apply in_app_iff in I. destruct I as [I|[[=]|[]]]; specialize (D2 _ _ _ _ I); fold n; lia.
    - intros e I. apply in_app_iff in I. destruct I as [I|[<-|[]]].
      + apply (evok_delays _ tr); auto. intros g [(op & t & l & ->)|(op & t & l & ->)]; apply DL; eauto.
      + unfold evok. cbn. rewrite DN by lia. lia.
  Qed.

  Lemma inv_run st tr s s' x : inv st tr s -> kstep text s KRun = (s', x) -> exists st', inv st' (tr ++ [(KRun, ck_wall s, x)]) s' /\ ck_reader s' = ck_reader s /\ (ck_run s <> TIdle -> st' = st).
  Proof.
    intros I T. cbn in T. destruct (ck_run s) as [|next wake seq|] eqn:R.
    - destruct I as [A B C D D2 E]. rewrite R in B. destruct B as (B1 & B2 & B3 & B4). exists (ck_wall s).
      destruct (inv_made (ck_wall s) tr s (ck_wall s) (minute_of (ck_wall s)) 0 s' x) as [K1 K2].
      + exact A.
      + rewrite B1. reflexivity.
      + rewrite B1. cbn. lia.
      + rewrite B2. lia.
      + intros g y N. rewrite B1, nth_error_nil in N. discriminate.
      + exact D.
      + exact D2.
      + intros e H. apply B4, H.
      + exact T.
      + split; [exact K1|]. split; [exact K2|]. congruence.
    - exists st. destruct (N.ltb_spec (ck_mono s) wake) as [L|L].
      + injection T as <- <-. split; [|split; auto]. apply (inv_dull st tr s); auto; try lia; [exact Logic.I|exact (i_wall _ _ _ I)].
      + destruct I as [A B C D D2 E]. rewrite R in B. destruct B as (B1 & B2 & B3 & B4).
        destruct (inv_made st tr s next seq (ck_mono s - wake) s' x) as [K1 K2]; auto. lia.
    - destruct I as [A B C D D2 E]. rewrite R in B. contradiction.
  Qed.

  (** The task of a group is polled. *)
  Lemma inv_wrote st tr s g y z fs : inv st tr s -> nth_error (ck_segs s) g = Some y ->
    segok st (ck_mono s) (tr ++ [(KSend g, ck_wall s, KWrote g fs)]) g z ->
    evok st (tr ++ [(KSend g, ck_wall s, KWrote g fs)]) (KSend g, ck_wall s, KWrote g fs) ->
    inv st (tr ++ [(KSend g, ck_wall s, KWrote g fs)]) (Clock (ck_mono s) (ck_wall s) (ck_run s) (put g z (ck_segs s)) (ck_reader s)).
  Proof.
    intros [A B C D D2 E] N Z V.
    assert (DL : forall h, delays (tr ++ [(KSend g, ck_wall s, KWrote g fs)]) h = delays tr h) by (intros h; rewrite delays_app; cbn; lia).
    constructor; cbn; auto.
    - destruct (ck_run s); auto.
      + destruct B as (B1 & _). rewrite B1 in N. rewrite nth_error_nil in N. discriminate.
      + rewrite (put_length _ _ _ _ N), DL. destruct B as (B1 & B2). split; [|exact B2].
        unfold put. destruct (firstn g (ck_segs s)); discriminate.
    - intros h x Nh. destruct (Nat.eq_dec g h) as [<-|Ne].
      + rewrite (put_same _ _ _ _ N) in Nh. injection Nh as <-. exact Z.
      + rewrite (put_other _ _ _ _ _ N Ne) in Nh. destruct (C _ _ Nh) as [K1 K2 K3 K4 K5].
        assert (TL : times st h (tr ++ [(KSend g, ck_wall s, KWrote g fs)]) = times st h tr).
        { rewrite times_one. cbn. rewrite (proj2 (Nat.eqb_neq _ _)) by exact Ne. apply app_nil_r. }
        constructor; rewrite ?TL, ?DL; auto.
        destruct (sg_wake x); auto. destruct K2 as (B1 & B2 & B3 & B4 & op0 & t0 & d0 & B5). repeat (split; [assumption|]). exists op0, t0, d0. apply in_or_app. auto.
    - intros op t h late I. rewrite (put_length _ _ _ _ N). apply in_app_iff in I. destruct I as [I|[[=]|[]]]. eauto.
    - intros op t h fs1 I. rewrite (put_length _ _ _ _ N). apply in_app_iff in I. destruct I as [I|[[= <- <- <- <-]|[]]]; [eauto|].
      apply nth_error_Some. rewrite N. discriminate.
    - intros e I. apply in_app_iff in I. destruct I as [I|[<-|[]]]; [|exact V]. apply (evok_delays _ tr); auto.
  Qed.
  Lemma inv_ended st tr s g y z : inv st tr s -> nth_error (ck_segs s) g = Some y ->
    sg_seq z = sg_seq y -> sg_now z = sg_now y -> sg_wake z = sg_wake y -> sg_wake y <> None -> sg_frames z = sg_frames y ->
    inv st (tr ++ [(KSend g, ck_wall s, KEnded g)]) (Clock (ck_mono s) (ck_wall s) (ck_run s) (put g z (ck_segs s)) (ck_reader s)).
  Proof.
    intros I N E1 E2 E3 E4 E5. apply (inv_dull st tr s (Clock (ck_mono s) (ck_wall s) (ck_run s) (ck_segs s) (ck_reader s)) (KSend g) (KEnded g)) in I; [|exact Logic.I|apply N.le_refl|exact (i_wall _ _ _ I)|reflexivity|reflexivity].
    destruct I as [A B C D D2 E]. cbn in *. constructor; cbn; auto.
    - destruct (ck_run s); auto.
      + destruct B as (B1 & _). rewrite B1 in N. rewrite nth_error_nil in N. discriminate.
      + rewrite (put_length _ _ _ _ N). destruct B as (B1 & B2). split; [|exact B2]. unfold put. destruct (firstn g (ck_segs s)); discriminate.
    - intros h x Nh. destruct (Nat.eq_dec g h) as [<-|Ne].
      + rewrite (put_same _ _ _ _ N) in Nh. injection Nh as <-. destruct (C _ _ N) as [K1 K2 K3 K4 K5]. constructor; auto; [congruence|].
        rewrite E3, E5, E2. destruct (sg_wake y); [exact K2|congruence].
      + rewrite (put_other _ _ _ _ _ N Ne) in Nh. auto.
    - rewrite (put_length _ _ _ _ N). exact D.
    - rewrite (put_length _ _ _ _ N). exact D2.
  Qed.

  Lemma inv_send st tr s g s' x : inv st tr s -> kstep text s (KSend g) = (s', x) -> inv st (tr ++ [(KSend g, ck_wall s, x)]) s'.
  Proof.
    intros I T. cbn in T. pose proof (i_wall _ _ _ I) as W.
    assert (Q : inv st (tr ++ [(KSend g, ck_wall s, KNothing)]) s) by (apply (inv_dull st tr s); auto; try lia; exact Logic.I).
    destruct (nth_error (ck_segs s) g) as [y|] eqn:N; [|injection T as <- <-; exact Q].
    unfold send in T. destruct (sg_done y) eqn:Dn; [injection T as <- <-; exact Q|].
    pose proof (i_segs _ _ _ I _ _ N) as K. destruct (sg_wake y) as [k|] eqn:Wk.
    - destruct (N.ltb_spec (ck_mono s) k) as [L|L]; [injection T as <- <-; exact Q|].
      destruct K as [K1 K2 K3 K4 K5]. rewrite Wk in K2. destruct K2 as (F & (rest & R) & (past & P) & Nx & op0 & t0 & d0 & Fi).
      assert (Su : slt (sg_now y) (ck_wall s)) by (apply slt_next; lia).
      assert (Hm : minute_of (sg_now y) = minute_of (nom st g) /\ nom st g <= sg_now y <= w + ck_mono s).
      { rewrite Forall_forall in K4. apply K4. rewrite P. apply in_or_app. right. left. reflexivity. }
      destruct (N.eqb_spec (minute_of (ck_wall s)) (minute_of (sg_now y))) as [M|M]; injection T as <- <-.
      + assert (TL : times st g (tr ++ [(KSend g, ck_wall s, KWrote g [delta_of (ck_wall s)])]) = times st g tr ++ [ck_wall s]).
        { rewrite times_one. cbn. rewrite Nat.eqb_refl. reflexivity. }
        pose proof (slt_lt _ _ Su). apply (inv_wrote _ _ _ _ y); auto.
        * constructor; cbn; rewrite ?TL.
          -- exact K1.
          -- split; [rewrite F, map_app; reflexivity|]. split; [exists (rest ++ [ck_wall s]); rewrite R; reflexivity|].
             split; [eexists; reflexivity|]. split; [rewrite next_second_eq; destruct (floor_sec (ck_wall s)) as (r & E1 & E2); lia|].
             exists op0, t0, d0. apply in_or_app. auto.
          -- apply sorted_app; auto; [constructor; constructor|]. rewrite P. rewrite P in K3. clear -K3 Su.
             apply Forall_forall. intros t I. constructor; [|constructor]. apply in_app_iff in I. destruct I as [I|[<-|[]]]; [|exact Su].
             apply (slt_trans _ (sg_now y)); [|exact Su]. apply In_nth_error in I. destruct I as [i I].
             assert (i < length past)%nat by (apply nth_error_Some; rewrite I; discriminate).
             eapply (sorted_nth _ _ i (length past)); [exact K3|rewrite nth_error_app1 by lia; exact I|rewrite nth_error_app2, Nat.sub_diag by lia; reflexivity|lia].
          -- apply Forall_app. split; [exact K4|]. constructor; [|constructor]. split; [rewrite M; apply Hm|lia].
          -- rewrite delays_app. cbn. lia.
        * unfold evok. cbn. split; [reflexivity|]. split; [rewrite M; apply Hm|lia].
      + apply (inv_ended _ _ _ _ y); auto; rewrite Wk; auto. discriminate.
    - injection T as <- <-. destruct K as [K1 K2 K3 K4 K5]. rewrite Wk in K2. destruct K2 as (F & _ & Nw & Tm).
      assert (TL : times st g (tr ++ [(KSend g, ck_wall s, KWrote g [text (sg_now y / minute); delta_of (sg_now y)])]) = [nom st g]).
      { rewrite times_one, Tm. cbn. rewrite Nat.eqb_refl. reflexivity. }
      apply (inv_wrote _ _ _ _ y); auto.
      + constructor; cbn; rewrite ?TL.
        * exact K1.
        * rewrite F, Nw. split; [reflexivity|]. split; [eauto|]. split; [exists []; reflexivity|].
          split; [rewrite next_second_eq; destruct (floor_sec (nom st g)) as (r & E1 & E2); lia|].
          eexists _, _, _. apply in_or_app. right. left. reflexivity.
        * constructor; constructor.
        * constructor; [|constructor]. split; [reflexivity|lia].
        * rewrite delays_app. cbn. lia.
      + unfold evok. cbn. rewrite delays_app, Nw. cbn. repeat split; auto. lia.
  Qed.

  Lemma look_same s s' x : look s = (s', x) -> ck_mono s' = ck_mono s /\ ck_wall s' = ck_wall s /\ ck_run s' = ck_run s /\ ck_segs s' = ck_segs s /\ dull x.
  Proof.
    unfold look. destruct (ck_reader s) as [prev|q g|q g i base|].
    - destruct (rev (ck_segs s)) as [|y r]; [|destruct (match prev with Some _ => _ | None => _ end)]; intros [= <- <-]; repeat split; auto.
    - destruct (nth_error (ck_segs s) g) as [y|]; [destruct (sg_frames y); [destruct (sg_done y)|]|]; intros [= <- <-]; repeat split; auto.
    - destruct (nth_error (ck_segs s) g) as [y|]; [destruct (nth_error (sg_frames y) i); [|destruct (sg_done y)]|]; intros [= <- <-]; repeat split; auto.
    - intros [= <- <-]. repeat split; auto.
  Qed.

  Lemma inv_step st tr s op s' x : inv st tr s -> (forall a, op <> KAdjust a) -> kstep text s op = (s', x) ->
    exists st', inv st' (tr ++ [(op, ck_wall s, x)]) s' /\ (ck_run s <> TIdle \/ op <> KRun -> st' = st).
  Proof.
    intros I Na T. destruct op as [d|a| |g|].
    - exists st. split; auto. cbn in T. injection T as <- <-. pose proof (i_wall _ _ _ I). apply (inv_dull st tr s); cbn; auto; try lia.
    - exfalso. apply (Na a). reflexivity.
    - destruct (inv_run _ _ _ _ _ I T) as (st' & A & _ & B). exists st'. split; [exact A|]. intros [K|K]; [auto|congruence].
    - exists st. split; auto. apply (inv_send _ _ _ _ _ _ I T).
    - exists st. split; auto. cbn in T. apply look_same in T. destruct T as (A & B & C & D & E). pose proof (i_wall _ _ _ I). apply (inv_dull st tr s); auto; lia.
  Qed.

  Lemma inv_new : inv 0 [] (clock_new w).
  Proof.
    constructor; cbn; try lia; try contradiction.
    - repeat split; auto; contradiction.
    - intros g x N. rewrite nth_error_nil in N. discriminate.
  Qed.

  Lemma inv_krun ops : forall st tr0 s s' tr, inv st tr0 s -> krun text s ops = (s', tr) -> steady tr -> exists st', inv st' (tr0 ++ tr) s'.
  Proof.
    induction ops as [|op ops IH]; intros st tr0 s s' tr I R St; cbn in R; [injection R as <- <-; rewrite app_nil_r; eauto|].
    destruct (kstep text s op) as [s1 x] eqn:T. destruct (krun text s1 ops) as [s2 tr1] eqn:R1. injection R as <- <-.
    assert (forall a, op <> KAdjust a) as Na by (intros a ->; apply (St a (ck_wall s) x); left; reflexivity).
    destruct (inv_step _ _ _ _ _ _ I Na T) as (st' & I1 & _).
    change ((op, ck_wall s, x) :: tr1) with ([(op, ck_wall s, x)] ++ tr1). rewrite app_assoc. eapply IH; eauto.
    intros a t y K. apply (St a t y). right. exact K.
  Qed.
End Runs.

(** ** What is written *)
Lemma reads_of text u v : v / second mod 60 = u / second mod 60 -> reads text (text (u / minute) ++ delta_of v) u.
Proof.
  intros E. set (q := v / second mod 60). assert (q < 60) by (apply N.mod_lt; discriminate).
  exists (q / 10), (q mod 10), (digit (q / 10)), (digit (q mod 10)).
  assert (q / 10 < 10) by (apply N.div_lt_upper_bound; lia). assert (q mod 10 < 10) by (apply N.mod_lt; discriminate).
  split; [reflexivity|]. split; [apply digit_N; auto|]. split; [apply digit_N; auto|]. split; [auto|]. split; [auto|].
  change (u / 1000000000 mod 60) with (u / second mod 60). rewrite <- E. fold q. symmetry. apply N.div_mod. discriminate.
Qed.
Lemma reads_minute text l u v : distinct text -> reads text l u -> reads text l v -> u / minute = v / minute.
Proof.
  intros D (a & b & x & y & -> & _) (a' & b' & x' & y' & E & _). apply D.
  change [x; y] with ([x] ++ [y]) in E. change [x'; y'] with ([x'] ++ [y']) in E. rewrite !app_assoc in E.
  apply app_inj_tail in E as [E _]. apply app_inj_tail in E as [E _]. exact E.
Qed.
(** Times in the same minute of the hour. *)
Lemma hours p t : p <= t / minute -> t / minute mod 60 = p mod 60 -> exists u k, t = u + k * hour /\ u / minute = p /\ u / second mod 60 = t / second mod 60.
Proof.
  intros L M. set (q := t / minute) in *. pose proof (N.div_mod q 60 ltac:(discriminate)). pose proof (N.div_mod p 60 ltac:(discriminate)).
  assert (p / 60 <= q / 60) by (apply N.div_le_mono; [discriminate|exact L]).
  destruct (floor_min t) as (r & E1 & E2). fold q in E1.
  assert (Ek : q = p + (q / 60 - p / 60) * 60) by lia. set (k := q / 60 - p / 60) in *.
  exists (p * minute + r), k. assert (Et : t = p * minute + r + k * hour) by (change hour with (60 * minute); lia).
  split; [exact Et|]. split.
  - rewrite N.add_comm, N.div_add, (N.div_small r) by (exact minute_pos || exact E2). lia.
  - rewrite Et. replace (k * hour) with (k * 60 * 60 * second) by (change hour with (60 * 60 * second); lia). rewrite N.div_add by exact second_pos. rewrite N.mod_add by discriminate. reflexivity.
Qed.

Section Theorems.
  Context (text : N -> bytes) (w : N) (ops : list kop) (s : clock) (tr : list kevent) (R : krun text (clock_new w) ops = (s, tr)) (St : steady tr).

  Lemma the_inv : exists st, inv text w st tr s.
  Proof. apply (inv_krun text w ops 0 [] (clock_new w) s tr (inv_new text w) R St). Qed.

  Lemma first_says g l t : first_line tr g l t -> exists u, reads text l u /\ u + delays tr g <= t.
  Proof.
    destruct the_inv as [st I]. intros (op & b & d & H & ->). apply (i_ev _ _ _ _ _ I) in H. cbn in H. destruct H as (-> & -> & H).
    exists (nom st g). split; [apply reads_of; reflexivity|exact H].
  Qed.
  Lemma made_says g l t : first_line tr g l t -> exists u, reads text l u /\ u + delays tr g <= t /\ forall op tm late, In (op, tm, KMade g late) tr -> tm = u + delays tr g.
  Proof.
    destruct the_inv as [st I]. intros (op1 & b & d & H & ->). apply (i_ev _ _ _ _ _ I) in H. cbn in H. destruct H as (-> & -> & H).
    exists (nom st g). split; [apply reads_of; reflexivity|]. split; [exact H|]. intros op tm late M. apply (i_ev _ _ _ _ _ I) in M. exact M.
  Qed.
  Lemma next_says g l t : next_line tr g l t -> exists u k, reads text l u /\ t = u + k * hour.
  Proof.
    destruct the_inv as [st I]. intros (op & op0 & b & d & d0 & t0 & H0 & H & ->).
    apply (i_ev _ _ _ _ _ I) in H, H0. cbn in H, H0. destruct H0 as (-> & _ & _). destruct H as (-> & M & L).
    destruct (hours (nom st g / minute) t) as (u & k & E & Eu & Es); [apply N.div_le_mono; [discriminate|exact L]|exact M|].
    exists u, k. split; [|exact E]. rewrite <- Eu. apply reads_of. auto.
  Qed.
  Lemma next_right g l0 t0 l t : first_line tr g l0 t0 -> next_line tr g l t -> (forall u, reads text l0 u -> t < u + 59 * minute) -> reads text l t.
  Proof.
    destruct the_inv as [st I]. intros (op1 & b1 & d1 & F & ->) (op & op0 & b & d & d0 & t1 & H0 & H & ->) K.
    apply (i_ev _ _ _ _ _ I) in H, H0, F. cbn in H, H0, F. destruct H0 as (-> & _ & _). destruct H as (-> & M & L). destruct F as (-> & -> & _).
    specialize (K (nom st g) (reads_of _ _ _ eq_refl)).
    assert (t / minute = nom st g / minute) as E.
    { assert (nom st g / minute <= t / minute) by (apply N.div_le_mono; [discriminate|exact L]).
      assert (t / minute < nom st g / minute + 60).
      { destruct (floor_min (nom st g)) as (r & E1 & E2). apply N.div_lt_upper_bound; [discriminate|]. lia. }
      unfold minute_of in M. pose proof (N.div_mod (t / minute) 60 ltac:(discriminate)). pose proof (N.div_mod (nom st g / minute) 60 ltac:(discriminate)). lia. }
    rewrite <- E. apply reads_of. reflexivity.
  Qed.
End Theorems.

(** [create_group] is always given a later sequence. *)
Section Alive.
  Context (text : N -> bytes).
  Definition alive (s : clock) : Prop :=
    match ck_run s with
    | TIdle => ck_segs s = []
    | TSleep _ _ seq => forall x, In x (ck_segs s) -> sg_seq x < seq
    | TDead => False
    end.
  Lemma turn_alive s now seq late s' x : (forall x, In x (ck_segs s) -> sg_seq x < seq) -> turn s now seq late = (s', x) -> alive s' /\ x <> KPanic.
  Proof.
    intros H T. unfold turn in T.
    assert (F : match rev (ck_segs s) with latest :: _ => sg_seq latest <? seq | [] => true end = true).
    { destruct (rev (ck_segs s)) as [|y r] eqn:E; [reflexivity|]. apply N.ltb_lt, H. apply in_rev. rewrite E. left. reflexivity. }
    rewrite F in T. injection T as <- <-. split; [|discriminate]. unfold alive. cbn. intros y I. apply in_app_iff in I. destruct I as [I|[<-|[]]]; cbn; [specialize (H _ I)|]; lia.
  Qed.
  Lemma in_put {A} n (z : A) l x : In x (put n z l) -> x = z \/ In x l.
  Proof.
    unfold put. intros I. apply in_app_iff in I. destruct I as [I|[I|I]]; auto; right.
    - rewrite <- (firstn_skipn n l). apply in_or_app. auto.
    - rewrite <- (firstn_skipn (S n) l). apply in_or_app. auto.
  Qed.
  Lemma alive_put s g y z : alive s -> nth_error (ck_segs s) g = Some y -> sg_seq z = sg_seq y ->
    alive (Clock (ck_mono s) (ck_wall s) (ck_run s) (put g z (ck_segs s)) (ck_reader s)).
  Proof.
    unfold alive. cbn. destruct (ck_run s); auto.
    - intros -> N. rewrite nth_error_nil in N. discriminate.
    - intros H N E x I. apply in_put in I. destruct I as [->|I]; auto. rewrite E. apply H. eapply nth_error_In; eauto.
  Qed.
  Lemma step_alive s op s' x : alive s -> kstep text s op = (s', x) -> alive s' /\ x <> KPanic.
  Proof.
    intros A T. destruct op as [d|a| |g|]; cbn in T.
    - injection T as <- <-. split; [exact A|discriminate].
    - injection T as <- <-. split; [exact A|discriminate].
    - unfold alive in A. destruct (ck_run s) as [|next wake seq|] eqn:R; [| |contradiction].
      + eapply turn_alive; [|exact T]. rewrite A. contradiction.
      + destruct (ck_mono s <? wake); [injection T as <- <-; split; [unfold alive; rewrite R; exact A|discriminate]|]. eapply turn_alive; eauto.
    - destruct (nth_error (ck_segs s) g) as [y|] eqn:N; [|injection T as <- <-; split; [exact A|discriminate]].
      unfold send in T. destruct (sg_done y); [injection T as <- <-; split; [exact A|discriminate]|].
      destruct (sg_wake y) as [k|].
      + destruct (ck_mono s <? k); [injection T as <- <-; split; [exact A|discriminate]|].
        destruct (minute_of (ck_wall s) =? minute_of (sg_now y)); injection T as <- <-; (split; [eapply alive_put; eauto|discriminate]).
      + injection T as <- <-. split; [eapply alive_put; eauto|discriminate].
    - apply look_same in T. destruct T as (E1 & E2 & E3 & E4 & D). split; [unfold alive; rewrite E3, E4; exact A|]. intros ->. exact D.
  Qed.
  Lemma never_panics ops : forall s s' tr, alive s -> krun text s ops = (s', tr) -> forall op t, ~ In (op, t, KPanic) tr.
  Proof.
    induction ops as [|o ops IH]; intros s s' tr A R op t I; cbn in R; [injection R as <- <-; exact I|].
    destruct (kstep text s o) as [s1 x] eqn:T. destruct (krun text s1 ops) as [s2 tr1] eqn:R1. injection R as <- <-.
    apply step_alive in T as [A1 P]; auto. destruct I as [I|I]; [congruence|]. eapply IH; eauto.
  Qed.
End Alive.

(** ** The reader *)
Section Reader.
  Context (text : N -> bytes) (w : N) (Di : distinct text).

  (** The lines written are the time at which they are written. *)
  Definition right (tr : list kevent) : Prop := forall g l t, next_line tr g l t -> reads text l t.
  Lemma right_app tr1 tr2 : right (tr1 ++ tr2) -> right tr1.
  Proof.
    intros H g l t (op & op0 & b & d & d0 & t0 & I0 & I & E). apply (H g). exists op, op0, b, d, d0, t0.
    repeat split; auto; apply in_or_app; auto.
  Qed.
  Lemma times_minute st tr s g x : inv text w st tr s -> right tr -> nth_error (ck_segs s) g = Some x ->
    Forall (fun t => t / minute = nom st g / minute) (times st g tr).
  Proof.
    intros I Rt N. destruct (i_segs _ _ _ _ _ I _ _ N) as [K1 K2 K3 K4 K5]. destruct (sg_wake x) as [k|].
    2: { destruct K2 as (_ & _ & _ & ->). constructor. }
    destruct K2 as (_ & _ & _ & _ & op0 & t0 & d0 & F).
    apply Forall_forall. intros t J. unfold times in J. apply in_concat in J. destruct J as (l & Jl & J).
    apply in_map_iff in Jl. destruct Jl as ([[op t1] o] & <- & Je). cbn in J. destruct o as [| | |g1 fs| | |]; try contradiction.
    destruct (Nat.eqb_spec g1 g) as [->|]; [|contradiction].
    destruct fs as [|d [|d1 fs]].
    - destruct J as [<-|[]]. reflexivity.
    - destruct J as [<-|[]].
      assert (V := i_ev _ _ _ _ _ I _ Je). cbn in V. destruct V as (-> & M & L).
      assert (reads text (text (nom st g / minute) ++ delta_of t1) t1) as Q by (apply (Rt g); exists op, op0, (text (nom st g / minute)), (delta_of t1), d0, t0; auto).
      destruct Q as (a & b & y & z & E & _). apply Di.
      unfold delta_of in E. change [?u; ?v] with ([u] ++ [v]) in E. rewrite !app_assoc in E.
      apply app_inj_tail in E as [E _]. apply app_inj_tail in E as [E _]. symmetry. exact E.
    - destruct J as [<-|[]]. reflexivity.
  Qed.

  Lemma printed_one tr e : printed (tr ++ [e]) = printed tr ++ match snd e with KPrinted l => [l] | _ => [] end.
  Proof. unfold printed. rewrite map_app, concat_app. cbn. rewrite app_nil_r. reflexivity. Qed.

  (** Everything printed comes before time [t]. *)
  Definition before (us : list N) (t : N) : Prop := Forall (fun u => slt u t) us.
  Definition rinv (st : N) (tr : list kevent) (s : clock) : Prop :=
    exists us, Forall2 (reads text) (printed tr) us /\ StronglySorted slt us /\
    match ck_reader s with
    | RWait None => us = []
    | RWait (Some q) => exists g, (g < length (ck_segs s))%nat /\ q = minute_of st + N.of_nat g /\ before us (nom st (S g))
    | RBase q g => (g < length (ck_segs s))%nat /\ q = minute_of st + N.of_nat g /\ before us (nom st g)
    | RLines q g i base => (g < length (ck_segs s))%nat /\ q = minute_of st + N.of_nat g /\ base = text (nom st g / minute) /\
        exists us0 j, i = S j /\ us = us0 ++ firstn j (times st g tr) /\ (j <= length (times st g tr))%nat /\ before us0 (nom st g)
    | RDone => True
    end.

  Lemma before_trans us a b : before us a -> slt a b -> before us b.
  Proof. intros H L. eapply Forall_impl; [|exact H]. cbn. intros u K. eapply slt_trans; eauto. Qed.
  Lemma nom_slt st g h : (g < h)%nat -> slt (nom st g) (nom st h).
  Proof. intros L. apply slt_minute. rewrite !nom_minute. lia. Qed.

  (** Steps that are not the reader's. *)
  Lemma rinv_other st tr s s' e : rinv st tr s -> ck_reader s' = ck_reader s -> (length (ck_segs s) <= length (ck_segs s'))%nat ->
    match snd e with KPrinted _ => False | _ => True end -> rinv st (tr ++ [e]) s'.
  Proof.
    intros (us & F & S & M) R L D. exists us. rewrite printed_one. replace (match snd e with KPrinted l => [l] | _ => [] end) with (@nil bytes) by (destruct (snd e); auto; contradiction).
    rewrite app_nil_r, R. split; [exact F|]. split; [exact S|]. destruct (ck_reader s) as [[q|]|q g|q g i base|]; auto.
    - destruct M as (g & G & M). exists g. split; [lia|exact M].
    - destruct M as (G & M). split; [lia|exact M].
    - destruct M as (G & Q & B & us0 & j & Ei & Eu & J & P). split; [lia|]. split; [exact Q|]. split; [exact B|]. exists us0, j. split; [exact Ei|].
      rewrite times_one. split; [|split; [rewrite app_length; lia|exact P]]. rewrite firstn_app. replace (j - length (times st g tr))%nat with 0%nat by lia. cbn. rewrite app_nil_r. exact Eu.
  Qed.

  Lemma latest_nth s y r : rev (ck_segs s) = y :: r -> nth_error (ck_segs s) (length (ck_segs s) - 1) = Some y /\ (length (ck_segs s) > 0)%nat.
  Proof.
    intros R. apply (f_equal (@rev _)) in R. rewrite rev_involutive in R. cbn in R. rewrite R, app_length. cbn.
    replace (length (rev r) + 1 - 1)%nat with (length (rev r)) by lia. rewrite nth_error_app2, Nat.sub_diag by lia. split; [reflexivity|lia].
  Qed.

  Lemma rinv_look st tr s s' x : inv text w st tr s -> right tr -> rinv st tr s -> look s = (s', x) -> rinv st (tr ++ [(KRead, ck_wall s, x)]) s'.
  Proof.
    intros I Rt Ri T.
    assert (Q : rinv st (tr ++ [(KRead, ck_wall s, KNothing)]) s) by (apply (rinv_other st tr s); cbn; auto).
    unfold look in T. destruct (ck_reader s) as [prev|q g|q g i base|] eqn:Rd; [| | |injection T as <- <-; exact Q].
    - destruct (rev (ck_segs s)) as [|y r] eqn:Rv; [injection T as <- <-; exact Q|]. apply latest_nth in Rv as [N G].
      destruct (match prev with Some q => q <? sg_seq y | None => true end) eqn:C; injection T as <- <-; [|exact Q].
      destruct Ri as (us & F & So & M). rewrite Rd in M. exists us. rewrite printed_one. cbn. rewrite app_nil_r. split; [exact F|]. split; [exact So|].
      pose proof (so_seq _ _ _ _ _ _ _ (i_segs _ _ _ _ _ I _ _ N)) as Sq. split; [lia|]. split; [exact Sq|].
      destruct prev as [q|]; [|subst us; constructor]. destruct M as (g & Gg & Eq & B). apply N.ltb_lt in C.
      assert (g < length (ck_segs s) - 1)%nat as L by lia. destruct (Nat.eq_dec (S g) (length (ck_segs s) - 1)) as [<-|Ne]; [exact B|].
      eapply before_trans; [exact B|]. apply nom_slt. lia.
    - destruct (nth_error (ck_segs s) g) as [y|] eqn:N; [|injection T as <- <-; exact Q].
      destruct (i_segs _ _ _ _ _ I _ _ N) as [K1 K2 K3 K4 K5]. destruct (sg_frames y) as [|f fs] eqn:Fr.
      + destruct (sg_done y); injection T as <- <-; [|exact Q]. destruct Ri as (us & F & So & M). exists us. rewrite printed_one. cbn. rewrite app_nil_r. auto.
      + injection T as <- <-. destruct Ri as (us & F & So & M). rewrite Rd in M. destruct M as (G & Eq & B).
        exists us. rewrite printed_one. cbn [snd]. rewrite app_nil_r. split; [exact F|]. split; [exact So|]. cbn [ck_reader ck_segs].
        split; [exact G|]. split; [exact Eq|]. destruct (sg_wake y) as [k|]; [|destruct K2; congruence]. destruct K2 as (K2 & _). injection K2 as -> _.
        split; [reflexivity|]. exists us, 0%nat. cbn [firstn]. rewrite app_nil_r. split; [reflexivity|]. split; [reflexivity|]. split; [lia|exact B].
    - destruct (nth_error (ck_segs s) g) as [y|] eqn:N; [|injection T as <- <-; exact Q].
      destruct (i_segs _ _ _ _ _ I _ _ N) as [K1 K2 K3 K4 K5]. pose proof (times_minute _ _ _ _ _ I Rt N) as Tm.
      destruct Ri as (us & F & So & M). rewrite Rd in M. destruct M as (G & Eq & -> & us0 & j & -> & Eu & J & B).
      destruct (nth_error (sg_frames y) (S j)) as [f|] eqn:Nf.
      + injection T as <- <-. destruct (sg_wake y) as [k|]; [|destruct K2 as (K2 & _); rewrite K2 in Nf; discriminate].
        destruct K2 as (K2 & (rest & Hd) & _). rewrite K2 in Nf. cbn [nth_error] in Nf. rewrite nth_error_map in Nf.
        destruct (nth_error (times st g tr) j) as [t|] eqn:Nt; [|discriminate]. cbn in Nf. injection Nf as <-.
        assert (Ht : t / minute = nom st g / minute) by (rewrite Forall_forall in Tm; apply Tm; eapply nth_error_In; eauto).
        assert (Fn : firstn (S j) (times st g tr) = firstn j (times st g tr) ++ [t]).
        { clear -Nt. revert j Nt. induction (times st g tr) as [|a l IH]; intros [|j] Nt; cbn in *; try discriminate; [injection Nt as ->; reflexivity|]. rewrite <- (IH j); auto. }
        assert (Tr : times st g (tr ++ [(KRead, ck_wall s, KPrinted (text (nom st g / minute) ++ delta_of t))]) = times st g tr) by (rewrite times_one; apply app_nil_r).
        exists (us ++ [t]). rewrite printed_one. cbn [snd]. split; [apply Forall2_app; [exact F|constructor; [|constructor]]; rewrite <- Ht; apply reads_of; reflexivity|].
        split.
        * apply sorted_app; [exact So|constructor; constructor|]. subst us. apply Forall_app. split.
          -- eapply Forall_impl; [|exact B]. cbn. intros u L. constructor; [|constructor].
             destruct j as [|j]; [rewrite Hd in Nt; injection Nt as <-; exact L|]. eapply slt_trans; [exact L|].
             eapply (sorted_nth _ _ 0 (S j)); [exact K3|rewrite Hd; reflexivity|exact Nt|lia].
          -- apply Forall_forall. intros u Iu. constructor; [|constructor]. apply In_nth_error in Iu. destruct Iu as [i Iu].
             assert (i < j)%nat as L by (assert (i < length (firstn j (times st g tr)))%nat as L by (apply nth_error_Some; rewrite Iu; discriminate); rewrite firstn_length in L; lia).
             eapply (sorted_nth _ _ i j); [exact K3| |exact Nt|exact L].
             rewrite <- (firstn_skipn j (times st g tr)), nth_error_app1; [exact Iu|]. apply nth_error_Some. rewrite Iu. discriminate.
        * cbn [ck_reader ck_segs]. split; [exact G|]. split; [exact Eq|]. split; [reflexivity|]. exists us0, (S j). split; [reflexivity|].
          rewrite Tr. split; [rewrite Fn, app_assoc; subst us; reflexivity|]. split; [apply nth_error_Some; rewrite Nt; discriminate|exact B].
      + destruct (sg_done y); injection T as <- <-; [|exact Q]. exists us. rewrite printed_one. cbn [snd]. rewrite app_nil_r. split; [exact F|]. split; [exact So|].
        cbn [ck_reader ck_segs]. exists g. split; [exact G|]. split; [exact Eq|]. subst us. apply Forall_app. split.
        * eapply before_trans; [exact B|]. apply nom_slt. lia.
        * apply Forall_forall. intros u Iu. apply slt_minute. rewrite Forall_forall in Tm. rewrite Tm; [rewrite !nom_minute; lia|].
          rewrite <- (firstn_skipn j (times st g tr)). apply in_or_app. auto.
  Qed.

  Lemma rinv_idle st st' tr s : inv text w st tr s -> ck_run s = TIdle -> rinv st tr s -> rinv st' tr s.
  Proof.
    intros I R (us & F & So & M). destruct I as [A B C D D2 E]. rewrite R in B. destruct B as (B1 & _). exists us. split; [exact F|]. split; [exact So|].
    rewrite B1 in *. cbn in *. destruct (ck_reader s) as [[q|]|q g|q g i base|]; auto.
    - destruct M as (g & G & _). lia.
    - destruct M as (G & _). lia.
    - destruct M as (G & _). lia.
  Qed.

  Lemma both_run ops : forall st tr0 s s' tr, inv text w st tr0 s -> rinv st tr0 s -> krun text s ops = (s', tr) -> steady tr -> right (tr0 ++ tr) ->
    exists st', inv text w st' (tr0 ++ tr) s' /\ rinv st' (tr0 ++ tr) s'.
  Proof.
    induction ops as [|op ops IH]; intros st tr0 s s' tr I Ri R Sy Rt; cbn in R; [injection R as <- <-; rewrite app_nil_r; eauto|].
    destruct (kstep text s op) as [s1 x] eqn:T. destruct (krun text s1 ops) as [s2 tr1] eqn:R1. injection R as <- <-.
    assert (forall a, op <> KAdjust a) as Na by (intros a ->; apply (Sy a (ck_wall s) x); left; reflexivity).
    destruct (inv_step _ _ _ _ _ _ _ _ I Na T) as (st' & I1 & K).
    change ((op, ck_wall s, x) :: tr1) with ([(op, ck_wall s, x)] ++ tr1) in *. rewrite app_assoc in *. pose proof (right_app _ _ (right_app _ _ Rt)) as Rt0.
    eapply IH; eauto; [|intros a t y L; apply (Sy a t y); right; exact L].
    assert (Ri' : rinv st' tr0 s).
    { destruct (ck_run s) eqn:Rn; [apply (rinv_idle st); auto| |]; rewrite K by (left; discriminate); exact Ri. }
    destruct op as [d|a| |g|]; cbn in T.
    - injection T as <- <-. apply (rinv_other st' tr0 s); cbn; auto.
    - exfalso. apply (Na a). reflexivity.
    - destruct (ck_run s) as [|next wake seq|]; [| |injection T as <- <-; apply (rinv_other st' tr0 s); cbn; auto].
      + unfold turn in T. destruct (match rev (ck_segs s) with [] => _ | _ => _ end); injection T as <- <-; apply (rinv_other st' tr0 s); cbn; auto. rewrite app_length. lia.
      + destruct (ck_mono s <? wake); [injection T as <- <-; apply (rinv_other st' tr0 s); cbn; auto|].
        unfold turn in T. destruct (match rev (ck_segs s) with [] => _ | _ => _ end); injection T as <- <-; apply (rinv_other st' tr0 s); cbn; auto. rewrite app_length. lia.
    - destruct (nth_error (ck_segs s) g) as [y|] eqn:N; [|injection T as <- <-; apply (rinv_other st' tr0 s); cbn; auto].
      unfold send in T. destruct (sg_done y); [injection T as <- <-; apply (rinv_other st' tr0 s); cbn; auto|].
      destruct (sg_wake y) as [k|].
      + destruct (ck_mono s <? k); [injection T as <- <-; apply (rinv_other st' tr0 s); cbn; auto|].
        destruct (minute_of (ck_wall s) =? minute_of (sg_now y)); injection T as <- <-; apply (rinv_other st' tr0 s); cbn; auto; rewrite (put_length _ _ _ _ N); auto.
      + injection T as <- <-; apply (rinv_other st' tr0 s); cbn; auto; rewrite (put_length _ _ _ _ N); auto.
    - assert (st' = st) as -> by (apply K; right; discriminate). eapply rinv_look; eauto.
  Qed.
End Reader.

Lemma goes_forward text w ops s tr : distinct text -> krun text (clock_new w) ops = (s, tr) -> steady tr -> (forall g l t, next_line tr g l t -> reads text l t) -> forward text (printed tr).
Proof.
  intros D R St Rt. destruct (both_run text w D ops 0 [] (clock_new w) s tr (inv_new text w)) as (st & _ & us & F & S & _); auto.
  - exists []. cbn. repeat split; constructor.
  - exists us. auto.
Qed.

(** ** Sleeping a little too long, every time *)
Lemma ev_op (o1 o2 : kop) (t1 t2 : N) (x1 x2 : kout) : (o1, t1, x1) = (o2, t2, x2) -> o1 = o2. Proof. congruence. Qed.
Lemma ev_out (o1 o2 : kop) (t1 t2 : N) (x1 x2 : kout) : (o1, t1, x1) = (o2, t2, x2) -> x1 = x2. Proof. congruence. Qed.
Section Drift.
  Context (text : N -> bytes) (e : N).
  Definition lagging (k : N) : clock :=
    Clock (k * (minute + e)) (k * (minute + e)) (TSleep ((k + 1) * minute) (k * (minute + e) + minute) (k + 1))
          (map (fun g => Seg (N.of_nat g) (N.of_nat g * minute) None [] false) (seq 0 (S (N.to_nat k)))) (RWait None).
  Lemma lag_start : exists x, kstep text (clock_new 0) KRun = (lagging 0, x) /\ x = KMade 0 0.
  Proof. eexists. split; reflexivity. Qed.
  Lemma lag_pass k : kstep text (lagging k) (KPass (minute + e)) =
    (Clock ((k + 1) * (minute + e)) ((k + 1) * (minute + e)) (ck_run (lagging k)) (ck_segs (lagging k)) (RWait None), KNothing).
  Proof. cbn [kstep ck_mono ck_wall ck_reader lagging]. replace (k * (minute + e) + (minute + e)) with ((k + 1) * (minute + e)) by lia. reflexivity. Qed.
  Lemma lag_run k : kstep text (Clock ((k + 1) * (minute + e)) ((k + 1) * (minute + e)) (ck_run (lagging k)) (ck_segs (lagging k)) (RWait None)) KRun =
    (lagging (k + 1), KMade (S (N.to_nat k)) e).
  Proof.
    cbn [kstep ck_run lagging ck_mono]. destruct (N.ltb_spec ((k + 1) * (minute + e)) (k * (minute + e) + minute)); [lia|].
    unfold turn. cbn [ck_segs ck_mono ck_wall ck_reader lagging]. rewrite seq_S, map_app, rev_app_distr. cbn [map rev app sg_seq plus].
    rewrite N2Nat.id. destruct (N.ltb_spec k (k + 1)); [|lia]. rewrite next_minute_eq, N.div_mul by exact minute_pos.
    rewrite app_length, map_length, seq_length. cbn [length].
    replace ((k + 1) * (minute + e) - (k * (minute + e) + minute)) with e by lia.
    replace (N.to_nat k + 1)%nat with (S (N.to_nat k)) by lia. f_equal. unfold lagging. f_equal.
    - f_equal; [|]; lia.
    - replace (N.to_nat (k + 1)) with (S (N.to_nat k)) by lia. rewrite (seq_S (S (N.to_nat k))), map_app. rewrite (seq_S (N.to_nat k)), map_app. cbn [map plus].
      rewrite N2Nat.id. f_equal. f_equal. f_equal; lia.
  Qed.
  Lemma lag_runs n : forall k, exists tr, krun text (lagging k) (concat (repeat [KPass (minute + e); KRun] n)) = (lagging (k + N.of_nat n), tr) /\
    steady tr /\ (forall op t g late, In (op, t, KMade g late) tr -> late <= e).
  Proof.
    induction n as [|n IH]; intros k.
    - exists []. cbn [repeat concat krun]. rewrite N.add_0_r. repeat split; try contradiction. intros a t x H. exact H.
    - destruct (IH (k + 1)) as (tr & R & S1 & L). cbn [repeat concat app krun]. rewrite lag_pass, lag_run, R.
      eexists. split; [f_equal; f_equal; lia|]. split.
      + intros a t x [H|[H|H]]; [apply ev_op in H; discriminate|apply ev_op in H; discriminate|exact (S1 _ _ _ H)].
      + intros op t g late [H|[H|H]]; [apply ev_out in H; discriminate| |exact (L _ _ _ _ H)]. apply ev_out in H. injection H as _ <-. apply N.le_refl.
  Qed.
End Drift.

Lemma krun_app text ops1 : forall s ops2, krun text s (ops1 ++ ops2) = let '(s1, t1) := krun text s ops1 in let '(s2, t2) := krun text s1 ops2 in (s2, t1 ++ t2).
Proof.
  induction ops1 as [|op ops IH]; intros s ops2; cbn; [destruct (krun text s ops2); reflexivity|].
  destruct (kstep text s op) as [s1 x]. rewrite IH. destruct (krun text s1 ops) as [s2 t1]. destruct (krun text s2 ops2). reflexivity.
Qed.

Lemma drifts text D : distinct text -> exists ops s tr g l t, krun text (clock_new 0) ops = (s, tr) /\ steady tr /\
  (forall op t g late, In (op, t, KMade g late) tr -> late <= 1000000) /\ (exists op late, In (op, t, KMade g late) tr) /\
  first_line tr g l t /\ forall u, reads text l u -> u + D <= t.
Proof.
  intros Di. set (e := 1000000). set (n := S (N.to_nat (D + second))). set (k := N.of_nat n).
  destruct (lag_runs text e (pred n) 0) as (tr1 & R1 & S1 & L1).
  set (mid := Clock (k * (minute + e)) (k * (minute + e)) (ck_run (lagging e (k - 1))) (ck_segs (lagging e (k - 1))) (RWait None)).
  set (line := [text k; delta_of (k * minute)]).
  assert (exists s tr2, krun text (lagging e (0 + N.of_nat (pred n))) [KPass (minute + e); KRun; KSend n] = (s, tr2) /\
    tr2 = [(KPass (minute + e), (k - 1) * (minute + e), KNothing); (KRun, k * (minute + e), KMade n e); (KSend n, k * (minute + e), KWrote n line)]) as (s & tr2 & R2 & E2).
  { replace (0 + N.of_nat (pred n)) with (k - 1) by lia. cbn [krun]. rewrite lag_pass. rewrite lag_run.
    assert (N : nth_error (ck_segs (lagging e (k - 1 + 1))) n = Some (Seg k (k * minute) None [] false)).
    { replace (k - 1 + 1) with k by lia. cbn [lagging ck_segs]. unfold k at 1. rewrite Nat2N.id, seq_S, map_app, nth_error_app2; rewrite map_length, seq_length; [|lia].
      rewrite Nat.sub_diag. cbn [nth_error map plus]. reflexivity. }
    cbn [kstep]. rewrite N. unfold send. cbn [sg_done sg_wake sg_now sg_frames sg_seq]. eexists _, _. split; [reflexivity|].
    cbn [ck_wall lagging]. replace (k - 1 + 1) with k by lia. replace (S (N.to_nat (k - 1))) with n by lia. rewrite N.div_mul by exact minute_pos. reflexivity. }
  exists (KRun :: concat (repeat [KPass (minute + e); KRun] (pred n)) ++ [KPass (minute + e); KRun; KSend n]), s,
    ((KRun, 0, KMade 0 0) :: tr1 ++ tr2), n, (text k ++ delta_of (k * minute)), (k * (minute + e)).
  split; [|split; [|split; [|split; [|split]]]].
  - cbn [krun]. destruct (lag_start text e) as (x & Hx & ->). rewrite Hx, krun_app, R1, R2. reflexivity.
  - intros a t x [H|H]; [apply ev_op in H; discriminate|]. apply in_app_iff in H. destruct H as [H|H]; [exact (S1 _ _ _ H)|]. subst tr2. destruct H as [H|[H|[H|[]]]]; apply ev_op in H; discriminate.
  - intros op t g late [H|H]; [apply ev_out in H; injection H as _ <-; apply N.le_0_l|]. apply in_app_iff in H. destruct H as [H|H]; [exact (L1 _ _ _ _ H)|]. subst tr2.
    destruct H as [H|[H|[H|[]]]]; apply ev_out in H; try discriminate. injection H as _ <-. apply N.le_refl.
  - exists KRun, e. right. apply in_or_app. right. subst tr2. right. left. reflexivity.
  - exists (KSend n), (text k), (delta_of (k * minute)). split; [|reflexivity]. right. apply in_or_app. right. subst tr2. right. right. left. reflexivity.
  - intros u Ru.
    assert (Rk : reads text (text k ++ delta_of (k * minute)) (k * minute)).
    { replace (text k) with (text (k * minute / minute)) by (rewrite N.div_mul by exact minute_pos; reflexivity). apply reads_of. reflexivity. }
    pose proof (reads_minute _ _ _ _ Di Ru Rk) as Eu. rewrite N.div_mul in Eu by exact minute_pos.
    assert (Es : u / second mod 60 = k * minute / second mod 60).
    { destruct Ru as (a & b & x & y & El & Hx & Hy & _ & _ & Ha). destruct Rk as (a' & b' & x' & y' & El' & Hx' & Hy' & _ & _ & Ha').
      rewrite El in El'. change [x; y] with ([x] ++ [y]) in El'. change [x'; y'] with ([x'] ++ [y']) in El'. rewrite !app_assoc in El'.
      apply app_inj_tail in El' as [El' <-]. apply app_inj_tail in El' as [_ <-]. unfold second. rewrite <- Ha, <- Ha'. f_equal; lia. }
    replace (k * minute / second) with (k * 60) in Es by (change minute with (60 * second); rewrite N.mul_assoc, N.div_mul by exact second_pos; reflexivity).
    rewrite N.mod_mul in Es by discriminate. rewrite <- min_of_sec in Eu. pose proof (N.div_mod (u / second) 60 ltac:(discriminate)).
    destruct (floor_sec u) as (r & E1 & E3). change minute with (60 * second). unfold e, k, n in *. lia.
Qed.
