(** The events of a run and the state of the network. *)
From Coq Require Import NArith ZArith List Lia Bool Permutation.
From Coq Require Import Init.Byte Strings.Byte.
From Coq Require Import ZifyBool ZifyNat ZifyN.
From Verif.Model Require Import OriginSys Base Coding Message ErrorCode Stream Frame FrameSys Map Publisher ReceiverSys Spread.
From Verif.Spec Require Import OriginSpec SpreadSpec.
From Verif.Proofs Require Import TableP MapP BroadcastP OriginP OriginTop RelaySysP ReceiverP SpreadP SpreadFrameP SpreadTurnP SpreadRecvP SpreadNetP SpreadStepP SpreadInvP SpreadRunP SpreadAllP.
Import ListNotations.
Open Scope nat_scope.
#[local] Arguments put : simpl never.
#[local] Arguments remove : simpl never.
#[local] Arguments lookup : simpl never.
#[local] Arguments set_nth : simpl never.

Definition lstat (l : link) := (lk_src l, lk_cons l, lk_pre l, lk_dst l, lk_add l).
Definition hstat (p : hop) := (hp_src p, hp_cons p, hp_pre p, hp_dst p).

(** What a step adds. *)
Definition new_links (s : spread) (op : spop) (x : spout) : list (nat * nat * bytes * nat * bytes) :=
  let c a := match nth_error (sp_origins s) a with Some o => length (os_cons o) | None => 0 end in
  match op with
  | SLink a pre _ b add => if so_ok x then [(a, c a, pre, b, add)] else []
  | SHop a pre _ b add => if so_ok x then [(length (sp_origins s), 0, pre, b, add)] else []
  | _ => []
  end.
Definition new_hops (s : spread) (op : spop) (x : spout) : list (nat * nat * bytes * nat) :=
  let c a := match nth_error (sp_origins s) a with Some o => length (os_cons o) | None => 0 end in
  match op with
  | SHop a pre _ b add => if so_ok x then [(a, c a, pre, length (sp_origins s))] else []
  | _ => []
  end.
Definition new_opens (op : spop) (x : spout) (l : list bool) : list bool :=
  match op with
  | SHop _ _ _ _ _ => if so_ok x then l ++ [true] else l
  | SFail h => set_nth h false l
  | _ => l
  end.
Definition new_origins (op : spop) (x : spout) : nat := match op with SNode => 1 | SHop _ _ _ _ _ => if so_ok x then 1 else 0 | _ => 0 end.
Definition new_mine (s : spread) (op : spop) (x : spout) : list nat := match op with SNew => if so_ok x then [length (sp_closed s)] else [] | _ => [] end.

Lemma everywhere_stats c s : map lstat (sp_links (everywhere c s)) = map lstat (sp_links s) /\
  map hstat (sp_hops (everywhere c s)) = map hstat (sp_hops s) /\ map hp_open (sp_hops (everywhere c s)) = map hp_open (sp_hops s) /\
  length (sp_origins (everywhere c s)) = length (sp_origins s) /\ sp_mine (everywhere c s) = sp_mine s.
Proof.
  cbn. rewrite !map_map, map_length. auto.
Qed.

Lemma rsession s op s' x : op <> RSession -> rstep s op = (s', x) -> rv_session s' = rv_session s.
Proof.
  intros Ne. destruct op; cbn [rstep]; try congruence; intros H;
    repeat (let E := fresh in match type of H with context [match ?y with _ => _ end] => destruct y eqn:E end);
    injection H as <- <-; cbn; auto.
Qed.

Lemma receive_stats s h p p1 op s' x : nth_error (sp_hops s) h = Some p -> hstat p1 = hstat p -> hp_open p1 = hp_open p -> receive s h p1 op = (s', x) ->
  map lstat (sp_links s') = map lstat (sp_links s) /\ map hstat (sp_hops s') = map hstat (sp_hops s) /\
  map hp_open (sp_hops s') = (match op with RSession => if nth_error (sp_origins s) (hp_dst p) then set_nth h false (map hp_open (sp_hops s)) else map hp_open (sp_hops s) | _ => map hp_open (sp_hops s) end) /\
  length (sp_origins s') = length (sp_origins s) /\ sp_mine s' = sp_mine s.
Proof.
  intros Hh E Eo. unfold receive. assert (Ed : hp_dst p1 = hp_dst p) by (unfold hstat in E; congruence). rewrite Ed.
  destruct (nth_error (sp_origins s) (hp_dst p)) as [r|] eqn:Hr; [|intros [= <- <-]; repeat split; auto; destruct op; auto].
  destruct (rstep _ op) as [rs y] eqn:R. intros [= <- <-]. pose proof (everywhere_stats (os_closed (rv_origin rs))) as X. cbn.
  rewrite !map_map, map_length, set_nth_length. cbn. split; [auto|]. split.
  - eapply map_set_same; eauto. unfold hstat in *. cbn. congruence.
  - split; [|split; auto]. assert (D : op = RSession \/ op <> RSession) by (destruct op; auto; right; discriminate). destruct D as [->|D].
    + cbn in R. injection R as <- <-. cbn. rewrite map_set_nth. reflexivity.
    + pose proof (rsession _ _ _ _ D R) as Rs. cbn in Rs. destruct op; try contradiction; eapply map_set_same; eauto; cbn; congruence.
Qed.

Lemma step_stats s P G op s' x : net_s s P G -> spstep s op = (s', x) ->
  map lstat (sp_links s') = map lstat (sp_links s) ++ new_links s op x /\
  map hstat (sp_hops s') = map hstat (sp_hops s) ++ new_hops s op x /\
  map hp_open (sp_hops s') = new_opens op x (map hp_open (sp_hops s)) /\
  length (sp_origins s') = length (sp_origins s) + new_origins op x /\
  sp_mine s' = sp_mine s ++ new_mine s op x.
Proof.
  intros N. assert (Z : forall y, (s, y) = (s', x) ->
    match op with SLink _ _ _ _ _ | SHop _ _ _ _ _ | SNew => so_ok y = false | SNode | SFail _ => False | _ => True end -> _) by exact (fun y E Q =>
    ltac:(injection E as <- <-; cbn; destruct op; cbn; rewrite ?Q, ?app_nil_r, ?Nat.add_0_r; auto; contradiction) :
     map lstat (sp_links s') = map lstat (sp_links s) ++ new_links s op x /\
  map hstat (sp_hops s') = map hstat (sp_hops s) ++ new_hops s op x /\
  map hp_open (sp_hops s') = new_opens op x (map hp_open (sp_hops s)) /\
  length (sp_origins s') = length (sp_origins s) + new_origins op x /\
  sp_mine s' = sp_mine s ++ new_mine s op x).
  destruct op; cbn [spstep].
  - intros [= <- <-]. cbn. rewrite !app_nil_r, app_length. auto.
  - destruct (sp_origins s) eqn:E; [intros H; apply (Z _ H); reflexivity|]. intros [= <- <-]. cbn. rewrite !map_map, !app_nil_r, map_length, E, Nat.add_0_r. auto.
  - destruct (existsb (Nat.eqb b) (sp_mine s)); [|intros H; apply (Z _ H); exact I]. intros [= <- <-]. cbn. rewrite !map_map, !app_nil_r, map_length, Nat.add_0_r. auto.
  - destruct (own s n && existsb (Nat.eqb b) (sp_mine s)); [|intros H; apply (Z _ H); exact I]. unfold on_origin.
    destruct (nth_error (sp_origins s) n); [destruct (ostep o (OPublish 0 path b))|]; intros [= <- <-]; cbn; rewrite ?set_nth_length, !app_nil_r, Nat.add_0_r; auto.
  - destruct (own s n && usable s n o); [|intros H; apply (Z _ H); exact I]. unfold on_origin.
    destruct (nth_error (sp_origins s) n) as [a|]; [destruct (ostep a o)|]; intros [= <- <-]; cbn; rewrite ?set_nth_length, !app_nil_r, Nat.add_0_r; auto.
  - destruct (own s a && own s b); [|intros H; apply (Z _ H); reflexivity]. unfold on_origin.
    destruct (nth_error (sp_origins s) a) as [q|] eqn:E; [destruct (ostep q (OConsume 0 pre ks))|]; intros [= <- <-]; cbn; rewrite ?E, ?set_nth_length, ?app_nil_r, ?Nat.add_0_r, ?map_app; auto.
  - destruct (own s a && own s b); [|intros H; apply (Z _ H); reflexivity]. unfold on_origin.
    destruct (nth_error (sp_origins s) a) as [q|] eqn:E; [destruct (ostep q (OConsume 0 pre ks))|]; intros [= <- <-]; cbn; rewrite ?E, ?app_length, ?set_nth_length, ?app_nil_r, ?map_app; auto.
  - destruct (nth_error (sp_hops s) h) as [p|] eqn:Hh.
    + destruct (receive s h p RSession) as [s1 y] eqn:R. intros [= <- <-]. destruct (receive_stats _ _ _ _ _ _ _ Hh eq_refl eq_refl R) as (A & B & D & E & F).
      destruct (hop_facts _ _ _ N _ _ Hh) as (_ & (r & Hr & _) & _). rewrite Hr in D. cbn. rewrite !app_nil_r, Nat.add_0_r. auto.
    + intros [= <- <-]. cbn. rewrite !app_nil_r, Nat.add_0_r. repeat split; auto. rewrite set_nth_none; auto. apply nth_error_None. rewrite map_length. apply nth_error_None. auto.
  - unfold on_origin. destruct (nth_error (sp_origins s) n) as [a|]; [destruct (ostep a (OTask k))|]; intros [= <- <-]; cbn; rewrite ?set_nth_length, !app_nil_r, Nat.add_0_r; auto.
  - destruct (nth_error (sp_links s) k) as [[src c pre dst add wait hold []]|] eqn:Hk; try (intros H; apply (Z _ H); exact I). unfold on_origin.
    assert (W : forall os ev w h o, length os = length (sp_origins s) -> (with_link s k os (Link src c pre dst add w h o), fine ev) = (s', x) ->
       map lstat (sp_links s') = map lstat (sp_links s) ++ [] /\ map hstat (sp_hops s') = map hstat (sp_hops s) ++ [] /\
       map hp_open (sp_hops s') = map hp_open (sp_hops s) /\ length (sp_origins s') = length (sp_origins s) + 0 /\ sp_mine s' = sp_mine s ++ []).
    { intros os0 ev w h o L [= <- <-]. cbn. rewrite !app_nil_r, Nat.add_0_r. repeat split; auto. eapply map_set_same; eauto. }
    destruct hold as [[suf b]|].
    + destruct (nth_error (sp_origins s) dst) as [a|]; [destruct (ostep a (OPublish 0 (add ++ suf) b))|]; intros H; eapply W; [|exact H| |exact H]; rewrite ?set_nth_length; auto.
    + destruct wait.
      * destruct (nth_error (sp_origins s) src) as [a|] eqn:Ha; [|intros H; eapply W; [|exact H]; auto]. destruct (ostep a (ORecv c)) as [a1 y].
        destruct y; intros H; try (eapply W; [|exact H]; rewrite ?set_nth_length; auto; fail).
        rewrite nth_error_set_eq in H by (apply nth_error_Some; congruence). destruct (ostep a1 (OCDrop c)). eapply W; [|exact H]. rewrite !set_nth_length. auto.
      * destruct (nth_error (sp_origins s) src) as [a|] eqn:Ha; [|intros H; eapply W; [|exact H]; auto]. destruct (ostep a (OPop c)) as [a1 y].
        destruct y; intros H; try (eapply W; [|exact H]; rewrite ?set_nth_length; auto; fail).
  - destruct (nth_error (sp_hops s) h) as [[src c pre dst a wire m lf runs open]|] eqn:Hh; [|intros H; apply (Z _ H); exact I].
    destruct (an_over a); [intros H; apply (Z _ H); exact I|]. cbn zeta. unfold on_origin.
    assert (W : forall os ev a w, length os = length (sp_origins s) -> (with_hop s h os (Hop src c pre dst a w m lf runs open), fine ev) = (s', x) ->
       map lstat (sp_links s') = map lstat (sp_links s) ++ [] /\ map hstat (sp_hops s') = map hstat (sp_hops s) ++ [] /\
       map hp_open (sp_hops s') = map hp_open (sp_hops s) /\ length (sp_origins s') = length (sp_origins s) + 0 /\ sp_mine s' = sp_mine s ++ []).
    { intros os0 ev a0 w L [= <- <-]. cbn. rewrite !app_nil_r, Nat.add_0_r. repeat split; auto; eapply map_set_same; eauto. }
    set (kn := knowing (shut (sp_closed s)) a). cbn [new_links new_hops new_opens new_origins new_mine].
    assert (Z' : forall y, (s, y) = (s', x) ->   map lstat (sp_links s') = map lstat (sp_links s) ++ [] /\ map hstat (sp_hops s') = map hstat (sp_hops s) ++ [] /\
       map hp_open (sp_hops s') = map hp_open (sp_hops s) /\ length (sp_origins s') = length (sp_origins s) + 0 /\ sp_mine s' = sp_mine s ++ []).
    { intros y H. apply (Z _ H). exact I. }
    clearbody kn. clear Z.
    destruct (nth_error (sp_origins s) src) as [o|] eqn:Ho.
    + assert (L : src < length (sp_origins s)) by (apply nth_error_Some; congruence). destruct open.
      * destruct (ostep o (OPop c)) as [o1 y1]. rewrite (nth_error_set_eq src o1) by auto. destruct (ostep o1 (ORecv c)) as [o2 y2].
        rewrite (nth_error_set_eq src o2) by (rewrite set_nth_length; auto). destruct (ostep o2 (OCancel c)) as [o3 y3].
        destruct y1; try (destruct y2; try (intros H; eapply W; [|exact H]; rewrite ?set_nth_length; auto; fail);
          destruct (nstep kn (NTurn APending j ks)) as [a' []]; intros H; (eapply W; [|exact H]; rewrite ?set_nth_length; auto)).
        destruct (nstep (fst (nstep kn (NFeed suffix b))) (NTurn APending j ks)) as [a' []]; intros H; try (eapply Z'; exact H). eapply W; [|exact H]. rewrite set_nth_length. auto.
      * destruct (ostep o (OCDrop c)) as [o1 y1]. intros H. eapply W; [|exact H]. rewrite set_nth_length. auto.
    + rewrite ?Ho. destruct open; rewrite ?Ho; [rewrite ?Ho|intros H; eapply W; [|exact H]; auto].
      destruct (nstep kn (NTurn APending j ks)) as [a' []]; rewrite ?Ho; intros H; (eapply W; [|exact H]; auto).
  - destruct (nth_error (sp_hops s) h) as [[src c pre dst a wire m lf runs open]|] eqn:Hh; [|intros H; apply (Z _ H); exact I].
    destruct wire as [|msg wire]; [intros H; apply (Z _ H); exact I|]. destruct lf; [intros H; apply (Z _ H); exact I|].
    destruct (receive s h _ (RMsg msg)) as [s1 y] eqn:R. intros [= <- <-].
    destruct (receive_stats _ _ _ _ _ _ _ Hh (eq_refl : hstat (Hop src c pre dst a wire m None runs open) = _) eq_refl R) as (A & B & D & E & F).
    cbn. rewrite !app_nil_r, Nat.add_0_r. auto.
  - destruct (nth_error (sp_hops s) h) as [p|] eqn:Hh; [|intros H; apply (Z _ H); exact I].
    destruct (hp_open p); [intros H; apply (Z _ H); exact I|].
    destruct (receive s h p _) as [s1 y] eqn:R. intros [= <- <-]. destruct (receive_stats _ _ _ _ _ _ _ Hh eq_refl eq_refl R) as (A & B & D & E & F). cbn. rewrite !app_nil_r, Nat.add_0_r. auto.
  - destruct (nth_error (sp_hops s) h) as [p|] eqn:Hh; [|intros H; apply (Z _ H); exact I].
    destruct (receive s h p _) as [s1 y] eqn:R. intros [= <- <-]. destruct (receive_stats _ _ _ _ _ _ _ Hh eq_refl eq_refl R) as (A & B & D & E & F). cbn. rewrite !app_nil_r, Nat.add_0_r. auto.
  - destruct (nth_error (sp_hops s) h) as [p|] eqn:Hh; [|intros H; apply (Z _ H); exact I].
    destruct (receive s h p _) as [s1 y] eqn:R. intros [= <- <-]. destruct (receive_stats _ _ _ _ _ _ _ Hh eq_refl eq_refl R) as (A & B & D & E & F). cbn. rewrite !app_nil_r, Nat.add_0_r. auto.
  - intros H; apply (Z _ H); exact I.
Qed.
