From Coq Require Import ZArith List Bool Arith Lia.
From Verif.Model Require Import JsVideo.
From Verif.Spec Require Import JsVideoSpec.
Import ListNotations.
Open Scope nat_scope.

Definition opt {A} (o : option A) : list A := match o with Some x => [x] | None => [] end.
Definition held (s : video) : list vframe := opt (v_cur s) ++ opt (v_next s).
(** The reference as the code keeps it *)
Definition refs (l : list Z) : option Z := fold_left (fun o v => Some (new_ref o v)) l None.

Record inv (s : video) (l : vlog) : Prop := {
  i_held : outs l = given_back l ++ held s;
  i_next : v_cur s = None -> v_next s = None;
  i_no : map f_no (outs l) = seq 0 (v_count s);
  i_ref : v_ref s = refs (seen l) }.

(** What holds at every event, given what was before. *)
Definition ok (pre : vlog) (e : vev) : Prop :=
  match e with
  | EShow now f lag => exists rest, outs pre = given_back pre ++ f :: rest /\
      Some (lag + (f_ts f - now))%Z = refs (seen pre ++ [f_ts f - now])%Z /\
      (rest = [] \/ exists n, rest = [n] /\ (lag <= f_ts n - f_ts f)%Z)
  | ESkip now f => exists n d, outs pre = given_back pre ++ [f; n] /\
      Some (d + (f_ts f - now))%Z = refs (seen pre ++ [f_ts f - now])%Z /\ (f_ts n - f_ts f < d)%Z
  | EOut f => f_no f = length (outs pre)
  | EHang => False
  | _ => True
  end.
Definition good (l : vlog) : Prop := forall a e b, l = a ++ e :: b -> ok a e.

Lemma app_split : forall {A} (l1 l2 a : list A) e b, l1 ++ l2 = a ++ e :: b ->
  (exists c, l1 = a ++ e :: c) \/ (exists c, a = l1 ++ c /\ l2 = c ++ e :: b).
Proof.
  intros A l1. induction l1 as [|x l1 IH]; intros l2 a e b H; cbn in H.
  - right. exists a. auto.
  - destruct a as [|y a]; cbn in H.
    + injection H as -> H. left. exists l1. reflexivity.
    + injection H as <- H. destruct (IH _ _ _ _ H) as [(c & ->)|(c & -> & ->)]; [left; exists c|right; exists c]; auto.
Qed.

Lemma good_app : forall l evs, good l -> (forall a e b, evs = a ++ e :: b -> ok (l ++ a) e) -> good (l ++ evs).
Proof.
  intros l evs G H a e b E. destruct (app_split _ _ _ _ _ E) as [(c & ->)|(c & -> & ->)]; [exact (G _ _ _ eq_refl)|exact (H _ _ _ eq_refl)].
Qed.
Lemma good_1 : forall l e, good l -> ok l e -> good (l ++ [e]).
Proof.
  intros l e G O. apply good_app; [exact G|]. intros a x b E. destruct a as [|y a]; cbn in E; [|destruct a; discriminate].
  injection E as <- <-. now rewrite app_nil_r.
Qed.

Lemma outs_app : forall a b, outs (a ++ b) = outs a ++ outs b. Proof. intros. apply flat_map_app. Qed.
Lemma back_app : forall a b, given_back (a ++ b) = given_back a ++ given_back b. Proof. intros. apply flat_map_app. Qed.
Lemma seen_app : forall a b, seen (a ++ b) = seen a ++ seen b. Proof. intros. apply flat_map_app. Qed.
Lemma refs_app : forall a v, refs (a ++ [v]) = Some (new_ref (refs a) v).
Proof. intros. unfold refs. now rewrite fold_left_app. Qed.

Ltac simp := rewrite ?outs_app, ?back_app, ?seen_app; cbn [outs given_back seen flat_map app]; rewrite ?app_nil_r.

Lemma len_count : forall s l, inv s l -> length (outs l) = v_count s.
Proof. intros s l I. rewrite <- (map_length f_no), (i_no _ _ I). apply seq_length. Qed.

Lemma inv_output : forall s l k ts s' evs, inv s l -> good l -> v_output s k ts = (s', evs) -> inv s' (l ++ evs) /\ good (l ++ evs).
Proof.
  intros s l k ts s' evs I G E. pose proof (len_count _ _ I) as L. destruct I as [H X N R]. unfold v_output in E. unfold held in H.
  assert (O : ok l (EOut (VF (v_count s) k ts))) by (cbn; auto).
  assert (N' : map f_no (outs l ++ [VF (v_count s) k ts]) = seq 0 (S (v_count s))).
  { rewrite map_app, N. cbn [map f_no]. rewrite seq_S. reflexivity. }
  destruct (v_cur s) as [c|] eqn:Ec.
  - destruct (v_next s) as [n|] eqn:En; injection E as <- <-; cbn [opt app] in H.
    + split; [constructor; unfold held; cbn [v_cur v_next v_ref v_count opt]; simp; try discriminate; auto|].
      * rewrite H. now rewrite <- !app_assoc.
      * change (l ++ [EOut (VF (v_count s) k ts); EDrop c]) with (l ++ [EOut (VF (v_count s) k ts)] ++ [EDrop c]). rewrite app_assoc.
        apply good_1; [apply good_1; auto|exact Logic.I].
    + split; [constructor; unfold held; cbn [v_cur v_next v_ref v_count opt]; simp; try discriminate; auto|apply good_1; auto].
      rewrite H. now rewrite <- !app_assoc.
  - injection E as <- <-. rewrite (X eq_refl) in *. cbn [opt app] in H. rewrite app_nil_r in H.
    split; [constructor; unfold held; cbn [v_cur v_next v_ref v_count opt]; simp; try discriminate; auto|apply good_1; auto]. now rewrite H.
Qed.

Lemma inv_close : forall s l s' evs, inv s l -> good l -> v_close s = (s', evs) -> inv s' (l ++ evs) /\ good (l ++ evs) /\ held s' = [].
Proof.
  intros s l s' evs [H X N R] G E. unfold v_close in E. injection E as <- <-. unfold held in H. split; [|split; [|reflexivity]].
  - destruct (v_cur s) as [c|]; [|rewrite (X eq_refl) in *]; [destruct (v_next s) as [n|]|]; constructor; unfold held;
      cbn [v_cur v_next v_ref v_count opt drop_of app] in *; simp; auto. now rewrite app_nil_r in H.
  - apply good_app; [exact G|]. intros a e b E.
    assert (D : In e (drop_of (v_cur s) ++ drop_of (v_next s) ++ [EEnd])) by (rewrite E; apply in_or_app; right; left; auto).
    destruct (v_cur s), (v_next s); cbn in D; intuition (subst; exact Logic.I).
Qed.

Lemma inv_show : forall s l now c, inv s l -> good l -> v_cur s = Some c ->
  let r := (f_ts c - now)%Z in let ref := new_ref (v_ref s) r in
  (v_next s = None \/ exists n, v_next s = Some n /\ (ref - r <= f_ts n - f_ts c)%Z) ->
  inv (Video (v_cur s) (v_next s) (Some ref) (v_decs s) (v_count s) (v_dead s)) (l ++ [EShow now c (ref - r)]) /\ good (l ++ [EShow now c (ref - r)%Z]).
Proof.
  intros s l now c [H X N R] G Ec r ref D. unfold held in H. rewrite Ec in *. cbn [opt app] in H. split.
  - constructor; unfold held; cbn [v_cur v_next v_ref v_count]; simp; auto; try discriminate. rewrite refs_app, <- R. reflexivity.
  - apply good_1; [exact G|]. cbn [ok]. exists (opt (v_next s)). split; [exact H|]. rewrite refs_app, <- R. fold r. fold ref. split.
    + f_equal. lia.
    + destruct D as [->|(n & -> & D)]; [left|right; exists n]; auto.
Qed.

Lemma inv_frame : forall s l now s' evs, inv s l -> good l -> v_frame 2 s now = (s', evs) -> inv s' (l ++ evs) /\ good (l ++ evs).
Proof.
  intros s l now s' evs I G E. cbn -[new_ref Z.sub Z.leb] in E. destruct (v_cur s) as [c|] eqn:Ec.
  2:{ injection E as <- <-. split; [|apply good_1; auto; exact Logic.I]. destruct I. constructor; simp; auto. }
  assert (Hs : forall n, v_next s = n -> s = Video (Some c) n (v_ref s) (v_decs s) (v_count s) (v_dead s)).
  { intros n <-. rewrite <- Ec. now destruct s. }
  destruct (v_next s) as [n|] eqn:En.
  2:{ injection E as <- <-. pose proof (inv_show s l now c I G Ec (or_introl En)) as P. cbn zeta in P. rewrite Ec, En in P. exact P. }
  destruct (Z.leb_spec (new_ref (v_ref s) (f_ts c - now) - (f_ts c - now)) (f_ts n - f_ts c)) as [Q|Q].
  - injection E as <- <-. pose proof (inv_show s l now c I G Ec (or_intror (ex_intro _ n (conj En Q)))) as P. cbn zeta in P. rewrite Ec, En in P. exact P.
  - injection E as <- <-. destruct I as [H X N R]. unfold held in H. rewrite Ec, En in H. cbn [opt app] in H.
    set (ref := new_ref (v_ref s) (f_ts c - now)) in *.
    assert (I1 : inv (Video (Some n) None (Some ref) (v_decs s) (v_count s) (v_dead s)) (l ++ [ESkip now c])).
    { constructor; unfold held; cbn [v_cur v_next v_ref v_count opt]; simp; auto.
      - rewrite H, <- app_assoc. reflexivity.
      - rewrite refs_app, <- R. reflexivity. }
    assert (G1 : good (l ++ [ESkip now c])).
    { apply good_1; [exact G|]. cbn [ok]. exists n, (ref - (f_ts c - now))%Z. rewrite refs_app, <- R. fold ref. repeat split; auto. f_equal. lia. }
    pose proof (inv_show _ _ now n I1 G1 eq_refl (or_introl eq_refl)) as P. cbn [v_cur v_next v_ref v_decs v_count v_dead] in P.
    rewrite <- app_assoc in P. exact P.
Qed.

Lemma inv_step : forall s l o s' evs, inv s l -> good l -> v_step s o = (s', evs) -> inv s' (l ++ evs) /\ good (l ++ evs).
Proof.
  intros s l o s' evs I G E.
  assert (NOP : inv s (l ++ []) /\ good (l ++ [])) by (rewrite app_nil_r; auto).
  destruct o as [ready|k ts|k|now|]; cbn [v_step] in E.
  - destruct (v_dead s); [injection E as <- <-; exact NOP|].
    destruct ready; injection E as <- <-; (split; [|apply good_1; auto; exact Logic.I]); destruct I; constructor; simp; auto.
  - destruct (nth k (v_decs s) false); [eapply inv_output; eauto|injection E as <- <-; exact NOP].
  - destruct (nth k (v_decs s) false); [|injection E as <- <-; exact NOP].
    eapply (inv_close _ l) in E; [destruct E as (A & B & _); auto| |exact G]. destruct I; constructor; auto.
  - eapply inv_frame; eauto.
  - destruct (inv_close _ l _ _ I G E) as (A & B & _). auto.
Qed.

Lemma inv_run : forall ops s l s' l', inv s l -> good l -> v_run s ops = (s', l') -> inv s' (l ++ l') /\ good (l ++ l').
Proof.
  induction ops as [|o ops IH]; intros s l s' l' I G E; cbn [v_run] in E.
  - injection E as <- <-. rewrite app_nil_r. auto.
  - destruct (v_step s o) as [s1 a] eqn:E1. destruct (v_run s1 ops) as [s2 b] eqn:E2. injection E as <- <-.
    destruct (inv_step _ _ _ _ _ I G E1) as [I1 G1]. rewrite app_assoc. eapply IH; eauto.
Qed.

Lemma reach : forall ops s l, v_run v_init ops = (s, l) -> inv s l /\ good l.
Proof.
  intros ops s l E. eapply (inv_run ops v_init []); eauto.
  - constructor; reflexivity.
  - intros a e b H. destruct a; discriminate.
Qed.

(** ** C183 *)
Lemma number : forall ops s l a f b, v_run v_init ops = (s, l) -> outs l = a ++ f :: b -> f_no f = length a.
Proof.
  intros ops s l a f b E H. destruct (reach _ _ _ E) as [[_ _ N _] _]. rewrite H, map_app in N. cbn [map] in N.
  assert (Q : nth (length a) (seq 0 (v_count s)) 0 = f_no f) by (rewrite <- N, app_nth2; rewrite map_length; [now rewrite Nat.sub_diag|lia]).
  assert (P : length a < v_count s) by (apply (f_equal (@length nat)) in N; rewrite app_length, map_length, seq_length in N; cbn in N; lia).
  rewrite seq_nth in Q by exact P. lia.
Qed.

Lemma fifo : forall ops s l, v_run v_init ops = (s, l) ->
  exists rest, outs l = given_back l ++ rest /\ length rest <= 2 /\ NoDup (outs l).
Proof.
  intros ops s l E. destruct (reach _ _ _ E) as [[H _ N _] _]. exists (held s). split; [exact H|]. split.
  - unfold held. destruct (v_cur s), (v_next s); cbn; lia.
  - apply (NoDup_map_inv f_no). rewrite N. apply seq_NoDup.
Qed.

Lemma shown_live : forall ops s a now f lag b, v_run v_init ops = (s, a ++ EShow now f lag :: b) ->
  exists rest, outs a = given_back a ++ f :: rest /\ length rest <= 1.
Proof.
  intros ops s a now f lag b E. destruct (reach _ _ _ E) as [_ G]. destruct (G _ _ _ eq_refl) as (rest & H & _ & D).
  exists rest. split; [exact H|]. destruct D as [->|(n & -> & _)]; cbn; lia.
Qed.

Lemma answers : forall ops s l, v_run v_init ops = (s, l) -> ~ In EHang l.
Proof. intros ops s l E H. destruct (reach _ _ _ E) as [_ G]. apply in_split in H. destruct H as (a & b & ->). exact (G _ _ _ eq_refl). Qed.

(** ** C184 *)
Lemma at_no : forall ops s l a f b, v_run v_init ops = (s, l) -> outs l = a ++ f :: b -> nth_error (outs l) (f_no f) = Some f.
Proof.
  intros ops s l a f b E H. rewrite (number _ _ _ _ _ _ E H), H, nth_error_app2 by lia. now rewrite Nat.sub_diag.
Qed.

Lemma shown_no : forall ops s a now f lag b, v_run v_init ops = (s, a ++ EShow now f lag :: b) -> f_no f = length (given_back a).
Proof.
  intros ops s a now f lag b E. destruct (shown_live _ _ _ _ _ _ _ E) as (rest & H & _).
  eapply number; [exact E|]. rewrite outs_app, H, <- app_assoc. cbn [app]. reflexivity.
Qed.

Lemma never_back : forall ops s a n1 f1 l1 b n2 f2 l2 c, v_run v_init ops = (s, a ++ EShow n1 f1 l1 :: b ++ EShow n2 f2 l2 :: c) ->
  f_no f1 <= f_no f2.
Proof.
  intros ops s a n1 f1 l1 b n2 f2 l2 c E. rewrite (shown_no _ _ _ _ _ _ _ E).
  change (a ++ EShow n1 f1 l1 :: b ++ EShow n2 f2 l2 :: c) with (a ++ (EShow n1 f1 l1 :: b) ++ EShow n2 f2 l2 :: c) in E. rewrite app_assoc in E.
  rewrite (shown_no _ _ _ _ _ _ _ E), back_app, app_length. lia.
Qed.

Lemma order : forall ops s l a n1 f1 l1 b n2 f2 l2 c, v_run v_init ops = (s, l) -> l = a ++ EShow n1 f1 l1 :: b ++ EShow n2 f2 l2 :: c ->
  exists i j, i <= j /\ nth_error (outs l) i = Some f1 /\ nth_error (outs l) j = Some f2.
Proof.
  intros ops s l a n1 f1 l1 b n2 f2 l2 c E ->. exists (f_no f1), (f_no f2). split; [eapply never_back; eauto|]. split.
  - destruct (shown_live _ _ _ _ _ _ _ E) as (rest & H & _). eapply at_no; [exact E|]. rewrite outs_app, H, <- app_assoc. cbn [app]. reflexivity.
  - change (a ++ EShow n1 f1 l1 :: b ++ EShow n2 f2 l2 :: c) with (a ++ (EShow n1 f1 l1 :: b) ++ EShow n2 f2 l2 :: c) in *. rewrite app_assoc in *.
    destruct (shown_live _ _ _ _ _ _ _ E) as (rest & H & _). eapply at_no; [exact E|]. rewrite outs_app, H, <- app_assoc. cbn [app]. reflexivity.
Qed.

(** ** C185 *)
Lemma refs_largest : forall l v, ~ In 0%Z l -> exists m, refs (l ++ [v]) = Some m /\ largest (l ++ [v]) m.
Proof.
  intros l. induction l as [|x l IH] using rev_ind; intros v Z0.
  - exists v. split; [reflexivity|]. split; [left; auto|]. intros x [<-|[]]. lia.
  - destruct (IH x) as (m & E & M & U); [intro Q; apply Z0, in_or_app; auto|].
    exists (new_ref (Some m) v). rewrite refs_app, E. split; [reflexivity|].
    assert (NZ : m <> 0%Z) by (intros ->; exact (Z0 M)). unfold new_ref. replace (m =? 0)%Z with false by (symmetry; now apply Z.eqb_neq). cbn [orb].
    destruct (Z.gtb_spec v m) as [Q|Q].
    + split; [apply in_or_app; right; left; auto|]. intros y D. apply in_app_or in D. destruct D as [D|[<-|[]]]; [specialize (U _ D)|]; lia.
    + split; [apply in_or_app; left; auto|]. intros y D. apply in_app_or in D. destruct D as [D|[<-|[]]]; [specialize (U _ D)|]; lia.
Qed.

Lemma lag_is : forall ops s a now f lag b, v_run v_init ops = (s, a ++ EShow now f lag :: b) -> ~ In 0%Z (seen a) -> late (seen a) (f_ts f - now) lag.
Proof.
  intros ops s a now f lag b E Z0. destruct (reach _ _ _ E) as [_ G]. destruct (G _ _ _ eq_refl) as (rest & _ & R & _).
  destruct (refs_largest _ (f_ts f - now)%Z Z0) as (m & Em & L). rewrite Em in R. injection R as <-. unfold late.
  now replace (f_ts f - now + lag)%Z with (lag + (f_ts f - now))%Z by lia.
Qed.

Lemma lag_pos : forall ops s a now f lag b, v_run v_init ops = (s, a ++ EShow now f lag :: b) -> (0 <= lag)%Z.
Proof.
  intros ops s a now f lag b E. destruct (reach _ _ _ E) as [_ G]. destruct (G _ _ _ eq_refl) as (rest & _ & R & _).
  rewrite refs_app in R. injection R as R. unfold new_ref in R. destruct (refs (seen a)) as [o|]; [|lia].
  destruct (o =? 0)%Z; cbn [orb] in R; [lia|]. destruct (Z.gtb_spec (f_ts f - now) o); lia.
Qed.

Lemma skips : forall ops s a now f b, v_run v_init ops = (s, a ++ ESkip now f :: b) -> ~ In 0%Z (seen a) ->
  exists n d, outs a = given_back a ++ [f; n] /\ late (seen a) (f_ts f - now) d /\ (f_ts n - f_ts f < d)%Z.
Proof.
  intros ops s a now f b E Z0. destruct (reach _ _ _ E) as [_ G]. destruct (G _ _ _ eq_refl) as (n & d & H & R & D). exists n, d.
  split; [exact H|]. split; [|exact D]. destruct (refs_largest _ (f_ts f - now)%Z Z0) as (m & Em & L). rewrite Em in R. injection R as <-. unfold late.
  now replace (f_ts f - now + d)%Z with (d + (f_ts f - now))%Z by lia.
Qed.

Lemma waits : forall ops s a now f lag b n, v_run v_init ops = (s, a ++ EShow now f lag :: b) -> outs a = given_back a ++ [f; n] -> (lag <= f_ts n - f_ts f)%Z.
Proof.
  intros ops s a now f lag b n E H. destruct (reach _ _ _ E) as [_ G]. destruct (G _ _ _ eq_refl) as (rest & H' & _ & D).
  rewrite H in H'. apply app_inv_head in H'. injection H' as <-. destruct D as [D|(n' & D & Q)]; [discriminate|]. injection D as <-. exact Q.
Qed.

(** ** C186 *)
Lemma seen_of_in : forall k l x, In x (seen_of k l) -> In x (seen l).
Proof.
  intros k l x H. unfold seen_of in H. unfold seen. apply in_flat_map in H. destruct H as (e & D & H). apply in_flat_map. exists e. split; [exact D|].
  destruct e; try contradiction; destruct (f_src f =? k); auto; contradiction.
Qed.

Lemma seen_from : forall ops s l, v_run v_init ops = (s, l) -> forall a b, l = a ++ b -> forall k, all_from k (outs a) -> seen a = seen_of k a.
Proof.
  intros ops s l E a. induction a as [|e a IH] using rev_ind; intros b H k A; [reflexivity|].
  subst l. rewrite <- app_assoc in E. cbn [app] in E.
  assert (A' : all_from k (outs a)) by (intros f D; apply A; rewrite outs_app; apply in_or_app; auto).
  rewrite seen_app. unfold seen_of. rewrite flat_map_app. fold (seen_of k a). rewrite (IH (e :: b) ltac:(now rewrite <- app_assoc) k A'). f_equal.
  destruct (reach _ _ _ E) as [_ G]. specialize (G _ _ _ eq_refl).
  destruct e; try reflexivity; cbn [ok] in G.
  - destruct G as (n & d & H & _). cbn. rewrite (A' f) by (rewrite H; apply in_or_app; right; left; auto). now rewrite Nat.eqb_refl.
  - destruct G as (rest & H & _). cbn. rewrite (A' f) by (rewrite H; apply in_or_app; right; left; auto). now rewrite Nat.eqb_refl.
Qed.

Lemma lag_own : forall ops s a now f lag b, v_run v_init ops = (s, a ++ EShow now f lag :: b) -> ~ In 0%Z (seen a) -> all_from (f_src f) (outs a) ->
  late (seen_of (f_src f) a) (f_ts f - now) lag.
Proof.
  intros ops s a now f lag b E Z0 A. rewrite <- (seen_from _ _ _ E a _ eq_refl _ A). eapply lag_is; eauto.
Qed.

Lemma lag_least : forall ops s a now f lag b d, v_run v_init ops = (s, a ++ EShow now f lag :: b) -> ~ In 0%Z (seen a) ->
  late (seen_of (f_src f) a) (f_ts f - now) d -> (d <= lag)%Z.
Proof.
  intros ops s a now f lag b d E Z0 [D _]. destruct (lag_is _ _ _ _ _ _ _ E Z0) as [_ U].
  assert (Q : In (f_ts f - now + d)%Z (seen a ++ [f_ts f - now])%Z).
  { apply in_app_or in D. apply in_or_app. destruct D as [D|D]; [left; eapply seen_of_in; eauto|right; exact D]. }
  specialize (U _ Q). lia.
Qed.

(** ** C187 *)
Lemma switch : forall ops s a k b now f lag c, v_run v_init ops = (s, a ++ EStart k :: b ++ EShow now f lag :: c) ->
  all_from k (outs b) -> 2 <= length (outs b) -> f_src f = k.
Proof.
  intros ops s a k b now f lag c E A L.
  change (a ++ EStart k :: b ++ EShow now f lag :: c) with (a ++ (EStart k :: b) ++ EShow now f lag :: c) in E. rewrite app_assoc in E.
  destruct (shown_live _ _ _ _ _ _ _ E) as (rest & H & R). rewrite outs_app in H. change (outs (EStart k :: b)) with (outs b) in H.
  apply A. destruct (app_split _ _ _ _ _ H) as [(x & Q)|(x & _ & ->)]; [|apply in_or_app; right; left; auto].
  exfalso. rewrite Q in H. rewrite <- app_assoc in H. apply app_inv_head in H. cbn [app] in H. injection H as <-. rewrite app_length in R. lia.
Qed.

(** ** C188 *)
(** At the end of close nothing is held. *)
Lemma end_empty : forall s l o s' evs a b, inv s l -> good l -> v_step s o = (s', evs) -> evs = a ++ EEnd :: b ->
  outs (l ++ a) = given_back (l ++ a).
Proof.
  intros s l o s' evs a b I G E H.
  assert (C : forall t, inv t l -> v_close t = (s', evs) -> outs (l ++ a) = given_back (l ++ a)).
  { intros t It Et. destruct (inv_close _ _ _ _ It G Et) as ([Q _ _ _] & _ & Z0). rewrite Z0, app_nil_r in Q.
    unfold v_close in Et. injection Et as _ <-.
    assert (B : b = [] /\ a = drop_of (v_cur t) ++ drop_of (v_next t)).
    { destruct (v_cur t), (v_next t); cbn in H; destruct a as [|? [|? [|? [|? a]]]]; cbn in H; try discriminate; injection H; intros; subst; auto; try discriminate. }
    destruct B as [-> ->]. rewrite app_assoc, app_assoc, outs_app, back_app in Q. cbn in Q. rewrite !app_nil_r in Q. rewrite app_assoc. exact Q. }
  destruct o as [ready|k ts|k|now|]; cbn [v_step] in E.
  - exfalso. destruct (v_dead s); [|destruct ready]; injection E as _ <-; destruct a as [|? [|]]; discriminate.
  - exfalso. destruct (nth k (v_decs s) false); [|injection E as _ <-; destruct a; discriminate].
    unfold v_output in E. destruct (v_cur s); [destruct (v_next s)|]; injection E as _ <-; destruct a as [|? [|? [|]]]; discriminate.
  - destruct (nth k (v_decs s) false); [|injection E as _ <-; destruct a; discriminate].
    eapply C; [|exact E]. destruct I; constructor; auto.
  - exfalso. cbn -[new_ref Z.sub Z.leb] in E. destruct (v_cur s); [destruct (v_next s); [destruct (Z.leb _ _)|]|]; injection E as _ <-;
      destruct a as [|? [|? [|]]]; discriminate.
  - eapply C; eauto.
Qed.

Lemma end_run : forall ops s l s' l' a b, inv s l -> good l -> v_run s ops = (s', l') -> l' = a ++ EEnd :: b -> outs (l ++ a) = given_back (l ++ a).
Proof.
  induction ops as [|o ops IH]; intros s l s' l' a b I G E H; cbn [v_run] in E.
  - injection E as _ <-. destruct a; discriminate.
  - destruct (v_step s o) as [s1 x] eqn:E1. destruct (v_run s1 ops) as [s2 y] eqn:E2. injection E as _ <-.
    destruct (app_split _ _ _ _ _ H) as [(c & Q)|(c & -> & Q)]; [eapply end_empty; eauto|].
    destruct (inv_step _ _ _ _ _ I G E1) as [I1 G1]. rewrite app_assoc. eapply IH; eauto.
Qed.

Lemma close_gives_back : forall ops s a b, v_run v_init ops = (s, a ++ EEnd :: b) -> outs a = given_back a.
Proof.
  intros ops s a b E. change a with ([] ++ a). eapply end_run; eauto.
  - constructor; reflexivity.
  - intros x e y H. destruct x; discriminate.
Qed.

Lemma close_shows_none : forall ops s a b now f lag, v_run v_init ops = (s, a ++ EEnd :: b) -> outs b = [] -> ~ In (EShow now f lag) b.
Proof.
  intros ops s a b now f lag E N H. pose proof (close_gives_back _ _ _ _ E) as C. apply in_split in H. destruct H as (x & y & ->).
  change (a ++ EEnd :: x ++ EShow now f lag :: y) with (a ++ (EEnd :: x) ++ EShow now f lag :: y) in E. rewrite app_assoc in E.
  destruct (shown_live _ _ _ _ _ _ _ E) as (rest & H & _). rewrite outs_app in N. apply app_eq_nil in N. destruct N as [N _].
  rewrite outs_app, back_app in H. change (outs (EEnd :: x)) with (outs x) in H. rewrite N, app_nil_r, C, <- app_assoc in H.
  rewrite <- (app_nil_r (given_back a)) in H at 1. apply app_inv_head in H. destruct (given_back (EEnd :: x)); discriminate.
Qed.
