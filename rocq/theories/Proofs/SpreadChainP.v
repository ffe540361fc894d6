(** The events behind the state, and the way of every publication. *)
From Coq Require Import NArith ZArith List Lia Bool Permutation.
From Coq Require Import Init.Byte Strings.Byte.
From Coq Require Import ZifyBool ZifyNat ZifyN.
From Verif.Model Require Import OriginSys Base Coding Message ErrorCode Stream Frame FrameSys Map Publisher ReceiverSys Spread.
From Verif.Spec Require Import OriginSpec SpreadSpec.
From Verif.Proofs Require Import TableP MapP BroadcastP OriginP OriginTop RelaySysP ReceiverP SpreadP SpreadFrameP SpreadTurnP SpreadRecvP SpreadNetP SpreadStepP SpreadInvP SpreadRunP SpreadAllP SpreadTraceP SpreadShutP.
Import ListNotations.
Open Scope nat_scope.
#[local] Arguments put : simpl never.
#[local] Arguments remove : simpl never.
#[local] Arguments lookup : simpl never.
#[local] Arguments set_nth : simpl never.

Definition LS (s : spread) := map lstat (sp_links s).
Definition HS (s : spread) := map hstat (sp_hops s).
Definition OP (s : spread) := map hp_open (sp_hops s).
Definition mine_of (s : spread) (n : nat) : Prop := owned (sp_origins s) (sp_hops s) n.

Lemma mine_of_iff s n : mine_of s n <-> n < length (sp_origins s) /\ forall a c pre, ~ In (a, c, pre, n) (HS s).
Proof.
  unfold mine_of, owned, HS. split; intros (L & D); split; auto.
  - intros a c pre I. apply in_map_iff in I as (p & E & I). unfold hstat in E. apply (D p I). congruence.
  - intros p I E. apply (D (hp_src p) (hp_cons p) (hp_pre p)). apply in_map_iff. exists p. split; auto. unfold hstat. congruence.
Qed.

Record told (s : spread) (tr : list spevent) : Prop := {
  t_origin : forall n, origin_made tr n <-> mine_of s n;
  t_made : forall a pre ks b add x h, In (SHop a pre ks b add, x) tr -> so_made x = Some h ->
    exists c r, nth_error (HS s) h = Some (a, c, pre, r) /\ In (r, 0, pre, b, add) (LS s);
  t_link' : forall a pre ks b add x, In (SLink a pre ks b add, x) tr -> so_ok x = true -> exists c, In (a, c, pre, b, add) (LS s);
  t_link : forall a c pre b add, In (a, c, pre, b, add) (LS s) ->
    (exists ks x, In (SLink a pre ks b add, x) tr /\ so_ok x = true /\ mine_of s a) \/
    (exists h a0 c0 ks x, nth_error (HS s) h = Some (a0, c0, pre, a) /\ In (SHop a0 pre ks b add, x) tr /\ so_made x = Some h);
  t_cut : forall h, nth_error (OP s) h = Some false <-> was_cut tr h;
  t_end : forall b, was_ended tr b <-> In b (sp_mine s) /\ closedb (sp_closed s) b;
  t_pub : forall n path b x, In (SPublish n path b, x) tr -> so_ok x = true -> In (path, b) (given n tr) /\ In b (sp_mine s) /\ mine_of s n }.

Lemma in_snoc {A} (e : A) tr f : In e (tr ++ [f]) <-> In e tr \/ f = e.
Proof. rewrite in_app_iff. cbn. tauto. Qed.

Lemma given_snoc n tr e : given n (tr ++ [e]) = given n tr ++ flat_map pub_of (at_n n (so_did (snd e))).
Proof. unfold given. rewrite history_snoc, flat_map_app. reflexivity. Qed.

Section Step.
  Context (s : spread) (P : pubs_fn) (G : got_fn) (N : net_s s P G) (op : spop) (s' : spread) (x : spout) (S : spstep s op = (s', x)).

  Lemma hop_result a pre ks b add : op = SHop a pre ks b add ->
    (so_ok x = true /\ so_made x = Some (length (sp_hops s)) /\ mine_of s a /\ mine_of s b) \/ (so_ok x = false /\ so_made x = None).
  Proof.
    intros ->. cbn [spstep] in S. destruct (own s a && own s b) eqn:E.
    - left. apply andb_true_iff in E as (A & B). apply own_iff in A, B. destruct (on_origin _ _ _). injection S as <- <-. repeat split; auto; try apply A; try apply B.
    - right. injection S as <- <-. auto.
  Qed.
  Lemma link_result a pre ks b add : op = SLink a pre ks b add -> so_ok x = true -> mine_of s a /\ mine_of s b.
  Proof.
    intros ->. cbn [spstep] in S. destruct (own s a && own s b) eqn:E.
    - apply andb_true_iff in E as (A & B). apply own_iff in A, B. auto.
    - injection S as <- <-. discriminate.
  Qed.
  Lemma publish_result n path b : op = SPublish n path b -> so_ok x = true ->
    In b (sp_mine s) /\ mine_of s n /\ exists u, so_did x = [(n, (OPublish 0 path b, OUnique u))].
  Proof.
    intros -> Ok. cbn [spstep] in S. destruct (own s n && existsb (Nat.eqb b) (sp_mine s)) eqn:E; [|injection S as <- <-; discriminate].
    apply andb_true_iff in E as (A & B). apply own_iff in A. apply existsb_exists in B as (b' & B & Eb). apply Nat.eqb_eq in Eb. subst b'. split; auto. split; auto.
    destruct (nth_error (sp_origins s) n) as [o|] eqn:H; [|apply nth_error_None in H; destruct A; lia].
    destruct (ostep o (OPublish 0 path b)) as [o' y] eqn:Q. rewrite (on_some _ _ _ _ _ _ H Q) in S. injection S as <- <-. cbn.
    pose proof (n_prod _ _ _ _ _ _ _ N n o A H) as Pr. destruct (n_mine _ _ _ _ _ _ _ N b B) as (L & _).
    pose proof (nd_closed _ _ _ (n_node _ _ _ _ _ _ _ N _ _ H)) as Cl. cbn [ostep] in Q. rewrite Pr, Cl in Q.
    destruct (nth_error (sp_closed s) b) eqn:Z; [|apply nth_error_None in Z; lia]. destruct (OriginSys.announce _ _ _ _ _). injection Q as <- <-. eauto.
  Qed.

  Lemma mine_step n : mine_of s' n <-> mine_of s n \/ (op = SNode /\ so_made x = Some n).
  Proof.
    destruct (step_stats s P G op s' x N S) as (_ & H & _ & O & _). fold (HS s') in H. fold (HS s) in H. rewrite !mine_of_iff, H, O.
    assert (B : forall a c pre r, In (a, c, pre, r) (HS s) -> r < length (sp_origins s)).
    { intros a c pre r I. apply in_map_iff in I as (p & E & I). unfold hstat in E. injection E as _ _ _ <-.
      destruct (ho_dst _ _ _ _ _ (n_hops _ _ _ _ _ _ _ N p I)) as (r0 & Hr & _). apply nth_error_Some. congruence. }
    destruct op; cbn [new_hops new_origins]; try (rewrite Nat.add_0_r, app_nil_r; split; [auto|intros [?|([=] & _)]; auto]; fail).
    - rewrite app_nil_r. cbn in S. injection S as <- <-. cbn. split.
      + intros (L & D). destruct (Nat.eq_dec n (length (sp_origins s))) as [->|Ne]; [right; auto|left; split; [lia|auto]].
      + intros [(L & D)|(_ & [= <-])]; [split; [lia|auto]|]. split; [lia|]. intros a c pre I. apply B in I. lia.
    - destruct (so_ok x) eqn:E; [|rewrite Nat.add_0_r, app_nil_r; split; [auto|intros [?|([=] & _)]; auto]].
      split.
      + intros (L & D). left. split.
        * assert (n <> length (sp_origins s)); [|lia]. intros ->. eapply D. apply in_or_app. right. left. reflexivity.
        * intros a0 c pre0 I. eapply D, in_or_app. left. exact I.
      + intros [(L & D)|([=] & _)]. split; [lia|]. intros a0 c pre0 I. apply in_app_or in I as [I|[J|[]]]; [eapply D; eauto|injection J as _ _ _ J; lia].
  Qed.

End Step.

  Lemma told_step s P G op s' x tr : net_s s P G -> spstep s op = (s', x) -> told s tr -> told s' (tr ++ [(op, x)]).
  Proof.
    intros N S [T1 T2 T3 T4 T5 T6 T7].
    destruct (step_stats s P G op s' x N S) as (Hl & Hh & Ho & Hn & Hm). fold (LS s') in Hl. fold (LS s) in Hl. fold (HS s') in Hh. fold (HS s) in Hh. fold (OP s') in Ho. fold (OP s) in Ho.
    destruct (step_mine s P G N op s' x S) as (Gr & Mc). split.
    - intros n. rewrite (mine_step _ _ _ N _ _ _ S), <- T1. unfold origin_made. split.
      + intros (y & I & E). apply in_snoc in I as [I|[= -> ->]]; [left; eauto|right; auto].
      + intros [(y & I & E)|(-> & E)]; [exists y|exists x]; rewrite in_snoc; auto.
    - intros a pre ks b add y h I E. apply in_snoc in I as [I|[= -> ->]].
      + destruct (T2 _ _ _ _ _ _ _ I E) as (c & r & A & B). exists c, r. rewrite Hh, Hl. split; [|apply in_or_app; auto].
        rewrite nth_error_app1; auto. apply nth_error_Some. congruence.
      + destruct (hop_result _ _ _ _ S _ _ _ _ _ eq_refl) as [(K & M & _)|(_ & M)]; [|congruence]. rewrite M in E. injection E as <-.
        cbn [new_hops new_links] in Hh, Hl. rewrite K in Hh, Hl. do 2 eexists. rewrite Hh, Hl. split; [|apply in_or_app; right; left; reflexivity].
        rewrite nth_error_app2; unfold HS; rewrite map_length; [|lia]. rewrite Nat.sub_diag. reflexivity.
    - intros a pre ks b add y I E. apply in_snoc in I as [I|[= -> ->]].
      + destruct (T3 _ _ _ _ _ _ I E) as (c & A). exists c. rewrite Hl. apply in_or_app. auto.
      + cbn [new_links] in Hl. rewrite E in Hl. eexists. rewrite Hl. apply in_or_app. right. left. reflexivity.
    - intros a c pre b add I. rewrite Hl in I. apply in_app_or in I as [I|I].
      + destruct (T4 _ _ _ _ _ I) as [(ks & y & A & B & D)|(h & a0 & c0 & ks & y & A & B & D)].
        * left. exists ks, y. rewrite in_snoc, (mine_step _ _ _ N _ _ _ S). auto.
        * right. exists h, a0, c0, ks, y. rewrite in_snoc, Hh. split; auto. rewrite nth_error_app1; auto. apply nth_error_Some. congruence.
      + destruct op; cbn [new_links] in I; try destruct I.
        * destruct (so_ok x) eqn:E; [|destruct I]. destruct I as [[= -> <- -> -> ->]|[]]. left. exists ks, x. rewrite in_snoc, (mine_step _ _ _ N _ _ _ S). split; auto. split; auto.
          left. exact (proj1 (link_result _ _ _ _ S _ _ _ _ _ eq_refl E)).
        * destruct (so_ok x) eqn:E; [|destruct I]. destruct I as [[= <- <- -> -> ->]|[]]. right. cbn [new_hops] in Hh. rewrite E in Hh.
          destruct (hop_result _ _ _ _ S _ _ _ _ _ eq_refl) as [(K & M & _)|(M & _)]; [|congruence].
          do 5 eexists. rewrite Hh. split; [|split; [rewrite in_snoc; right; reflexivity|exact M]].
          rewrite nth_error_app2; unfold HS; rewrite map_length; [|lia]. rewrite Nat.sub_diag. reflexivity.
    - intros h. rewrite Ho.
      assert (Q : nth_error (new_opens op x (OP s)) h = Some false <-> nth_error (OP s) h = Some false \/ (op = SFail h /\ h < length (OP s))).
      { destruct op; cbn [new_opens]; try (split; [auto|intros [?|([=] & _)]; auto]; fail).
        - destruct (so_ok x); [|split; [auto|intros [?|([=] & _)]; auto]]. split.
          + intros Z. left. destruct (lt_dec h (length (OP s))) as [L|L]; [rewrite nth_error_app1 in Z; auto|]. rewrite nth_error_app2 in Z by lia.
            destruct (h - length (OP s)) as [|[|?]]; discriminate.
          + intros [Z|([=] & _)]. rewrite nth_error_app1; auto. apply nth_error_Some. congruence.
        - destruct (Nat.eq_dec h0 h) as [->|Ne].
          + destruct (lt_dec h (length (OP s))) as [L|L].
            * rewrite nth_error_set_eq by auto. split; auto.
            * rewrite set_nth_none by (apply nth_error_None; lia). split; auto. intros [?|(_ & ?)]; auto. contradiction.
          + rewrite nth_error_set_ne by auto. split; auto. intros [?|([= ?] & _)]; auto. contradiction. }
      rewrite Q, T5. unfold was_cut. split.
      + intros [(y & I & E)|(-> & L)]; [exists y; rewrite in_snoc; auto|]. exists x. rewrite in_snoc. split; auto.
        unfold OP in L. rewrite map_length in L. cbn in S. destruct (nth_error (sp_hops s) h) eqn:Z; [|apply nth_error_None in Z; lia].
        destruct (receive s h h0 RSession). injection S as <- <-. reflexivity.
      + intros (y & I & E). apply in_snoc in I as [I|[= -> ->]]; [left; eauto|]. right. split; auto. unfold OP. rewrite map_length.
        cbn in S. destruct (nth_error (sp_hops s) h) eqn:Z; [apply nth_error_Some; congruence|]. injection S as <- <-. discriminate.
    - intros b. rewrite Hm. unfold was_ended. split.
      + intros (y & I & E). apply in_snoc in I as [I|[= -> ->]].
        * destruct (proj1 (T6 b)) as (M & D); [exists y; auto|]. split; [apply in_or_app; auto|]. apply Gr. auto.
        * assert (M : In b (sp_mine s)).
          { cbn in S. destruct (existsb (Nat.eqb b) (sp_mine s)) eqn:M; [|injection S as <- <-; discriminate].
            apply existsb_exists in M as (b' & M & Eb). apply Nat.eqb_eq in Eb. congruence. }
          split; [apply in_or_app; auto|]. apply Mc; auto.
      + intros (M & D). apply in_app_or in M as [M|M].
        * apply Mc in D; auto. destruct D as [D|(-> & E)]; [|exists x; rewrite in_snoc; auto].
          destruct (proj2 (T6 b)) as (y & I & E); auto. exists y. rewrite in_snoc. auto.
        * exfalso. destruct op; cbn [new_mine] in M; try destruct M. destruct (so_ok x) eqn:E; [|destruct M]. destruct M as [<-|[]].
          cbn in S. destruct (sp_origins s) eqn:Eo; injection S as <- <-; [discriminate|].
          unfold sp_closed in D. cbn in D. rewrite Eo in D. cbn in D. rewrite closedb_snoc in D. apply closedb_lt in D. lia.
    - intros n path b y I E. rewrite given_snoc, Hm, (mine_step _ _ _ N _ _ _ S). apply in_snoc in I as [I|[= -> ->]].
      + destruct (T7 _ _ _ _ I E) as (A & B & D). rewrite !in_app_iff. auto.
      + destruct (publish_result _ _ _ N _ _ _ S _ _ _ eq_refl E) as (A & B & u & D). cbn [snd]. rewrite D. rewrite !in_app_iff. split; auto.
        right. unfold at_n. cbn. rewrite Nat.eqb_refl. cbn. auto.
  Qed.

Lemma told_run ops s tr : sprun spread_new ops = (s, tr) -> told s tr.
Proof.
  revert ops s tr. apply run_ind.
  - split; cbn; try (intros; contradiction).
    + intros n. split; [intros (x & [] & _)|intros (L & _); cbn in L; lia].
    + intros h. split; [destruct h; discriminate|intros (x & [] & _)].
    + intros b. split; [intros (x & [] & _)|intros ([] & _)].
  - intros ops s tr op s' x R T S. eapply told_step; eauto. eapply net_run; eauto.
Qed.

(** * The way of a publication *)
Inductive chain (tr : list spevent) (L : list (nat * nat * bytes * nat * bytes)) (H : list (nat * nat * bytes * nat)) :
  nat -> bytes -> nat -> nat -> list nat -> Prop :=
| ch_app n path b x : In (SPublish n path b, x) tr -> so_ok x = true -> chain tr L H n path b b []
| ch_link a c pre n add suf b b0 hs : In (a, c, pre, n, add) L -> In (pre ++ suf, b) (given a tr) -> chain tr L H a (pre ++ suf) b b0 hs ->
    chain tr L H n (add ++ suf) b b0 hs
| ch_hop h a c pre r t b b1 b0 hs : nth_error H h = Some (a, c, pre, r) -> In (t, b1) (got c (history a tr)) -> chain tr L H a (pre ++ t) b1 b0 hs ->
    chain tr L H r t b b0 (h :: hs).

Lemma chain_mono tr L H tr' L' H' n path b b0 hs : incl tr tr' -> incl L L' -> (forall h v, nth_error H h = Some v -> nth_error H' h = Some v) ->
  (forall n, incl (given n tr) (given n tr')) -> (forall n c, incl (got c (history n tr)) (got c (history n tr'))) -> chain tr L H n path b b0 hs -> chain tr' L' H' n path b b0 hs.
Proof.
  intros I1 I2 I3 I5 I4. induction 1.
  - eapply ch_app; eauto.
  - eapply ch_link; eauto. apply I5. auto.
  - eapply ch_hop; eauto. apply I4. auto.
Qed.

Lemma chain_run ops s tr : sprun spread_new ops = (s, tr) ->
  forall n path b, In (path, b) (given n tr) -> exists b0 hs, chain tr (LS s) (HS s) n path b b0 hs.
Proof.
  revert ops s tr. apply (run_ind (fun s tr => forall n path b, In (path, b) (given n tr) -> exists b0 hs, chain tr (LS s) (HS s) n path b b0 hs)); [intros n path b []|].
  intros ops s tr op s' x R IH S n path b I.
  pose proof (net_run _ _ _ R) as N. destruct (step_stats s _ _ op s' x N S) as (Hl & Hh & _). fold (LS s') in Hl. fold (LS s) in Hl. fold (HS s') in Hh. fold (HS s) in Hh.
  assert (Up : forall n path b b0 hs, chain tr (LS s) (HS s) n path b b0 hs -> chain (tr ++ [(op, x)]) (LS s') (HS s') n path b b0 hs).
  { intros n0 p0 b' b0 hs. apply chain_mono.
    - apply incl_appl, incl_refl.
    - rewrite Hl. apply incl_appl, incl_refl.
    - intros h v E. rewrite Hh, nth_error_app1; auto. apply nth_error_Some. congruence.
    - intros m. rewrite given_snoc. apply incl_appl, incl_refl.
    - intros m c. rewrite history_snoc. unfold got. rewrite flat_map_app. apply incl_appl, incl_refl. }
  rewrite given_snoc in I. apply in_app_or in I as [I|I].
  - destruct (IH _ _ _ I) as (b0 & hs & C). eauto.
  - cbn [snd] in I. destruct (pubs_source s op s' x n path b S I) as [(-> & E)|[(k & l & suf & -> & Hk & Ho & -> & ->)|(h & p & -> & Hp & W & ->)]].
    + exists b, []. eapply ch_app; eauto. apply in_or_app. right. left. reflexivity.
    + assert (Il : In l (sp_links s)) by (eapply nth_error_In; eauto). pose proof (n_links _ _ _ _ _ _ _ N l Il) as Ok.
      destruct (lo_hold _ _ _ _ _ Ok _ _ Ho) as (Ig & _). destruct (lo_src _ _ _ _ _ Ok) as (o & _ & Q).
      destruct (lk_over l); [destruct Q as (_ & _ & Q); congruence|]. destruct Q as (kk & _ & _ & _ & Q & _).
      assert (In (lk_pre l ++ suf, b) (given (lk_src l) tr)) as Ip by (apply Q; apply in_or_app; auto).
      destruct (IH _ _ _ Ip) as (b0 & hs & C). exists b0, hs. eapply (ch_link _ _ _ (lk_src l) (lk_cons l)); [|rewrite given_snoc; apply in_or_app; left; exact Ip|apply Up; exact C].
      rewrite Hl. apply in_or_app. left. apply in_map_iff. exists l. auto.
    + assert (Ip : In p (sp_hops s)) by (eapply nth_error_In; eauto). pose proof (n_hops _ _ _ _ _ _ _ N p Ip) as Ok.
      pose proof (ho_wire _ _ _ _ _ Ok _ W) as Iw. apply in_map_iff in Iw as ([t b1] & E & Ig). cbn in E. subst t.
      pose proof (ho_got _ _ _ _ _ Ok _ _ Ig) as Jp. destruct (IH _ _ _ Jp) as (b0 & hs & C). exists b0, (h :: hs).
      eapply (ch_hop _ _ _ h (hp_src p) (hp_cons p) (hp_pre p)); [| |apply Up; exact C].
      * rewrite Hh, nth_error_app1; [|apply nth_error_Some; unfold HS; erewrite map_nth_error by eauto; discriminate].
        unfold HS. erewrite map_nth_error by eauto. reflexivity.
      * rewrite history_snoc. unfold got. rewrite flat_map_app. apply in_or_app. left. exact Ig.
Qed.

(** The way in terms of events. *)
Lemma chain_comes ops s tr n path b b0 hs : sprun spread_new ops = (s, tr) -> chain tr (LS s) (HS s) n path b b0 hs ->
  (mine_of s n -> comes tr n path b0 hs) /\
  (forall h a c pre, nth_error (HS s) h = Some (a, c, pre, n) -> exists hs', hs = h :: hs' /\ comes tr a (pre ++ path) b0 hs').
Proof.
  intros R. pose proof (told_run _ _ _ R) as T. pose proof (net_run _ _ _ R) as N.
  assert (Src : forall h a c pre r, nth_error (HS s) h = Some (a, c, pre, r) -> mine_of s a /\ ~ mine_of s r).
  { intros h a c pre r E. apply nth_error_In in E. pose proof E as E0. apply in_map_iff in E as (p & E & I). unfold hstat in E. injection E as <- <- <- <-.
    split; [apply (n_hsrc _ _ _ _ _ _ _ N p I)|]. intros (_ & D). eapply D; eauto. }
  assert (Uniq : forall h h' a c pre a' c' pre' r, nth_error (HS s) h = Some (a, c, pre, r) -> nth_error (HS s) h' = Some (a', c', pre', r) -> h = h').
  { intros h h' a c pre a' c' pre' r E E'. pose proof (n_hdst _ _ _ _ _ _ _ N) as D.
    assert (Z : map hp_dst (sp_hops s) = map snd (HS s)) by (unfold HS; rewrite map_map; reflexivity). rewrite Z in D.
    apply (map_nth_error snd) in E, E'. cbn in E, E'. rewrite NoDup_nth_error in D. apply D; [|congruence]. apply nth_error_Some. congruence. }
  induction 1 as [n path b x I E|a c pre n add suf b b0 hs I Ia C IH|h a c pre r t b b1 b0 hs E Ig C IH].
  - destruct (t_pub _ _ T _ _ _ _ I E) as (_ & _ & M). split; [intros _; eapply comes_here; eauto|].
    intros h a c pre Eh. exfalso. destruct (Src _ _ _ _ _ Eh); auto.
  - assert (M : mine_of s n). { apply in_map_iff in I as (l & E & I). unfold lstat in E. injection E as <- <- <- <- <-. apply (n_ldst _ _ _ _ _ _ _ N l I). }
    split; [intros _|intros h a' c' pre' Eh; exfalso; destruct (Src _ _ _ _ _ Eh); auto].
    destruct (t_link _ _ T _ _ _ _ _ I) as [(ks & x & A & B & D)|(h & a0 & c0 & ks & x & A & B & D)].
    + change hs with (by_session None ++ hs). eapply comes_by; [apply IH; auto|]. eapply leads_link; eauto.
    + destruct IH as (_ & IH). destruct (IH _ _ _ _ A) as (hs' & -> & Co). change (h :: hs') with (by_session (Some h) ++ hs').
      eapply comes_by; [exact Co|]. eapply leads_hop; eauto.
  - destruct (Src _ _ _ _ _ E) as (Ma & Mr). split; [contradiction|]. intros h' a' c' pre' E'. pose proof (Uniq _ _ _ _ _ _ _ _ _ E E') as <-.
    rewrite E in E'. injection E' as <- <- <-. exists hs. split; auto. apply IH. auto.
Qed.
