(** Where the frames of a media reader come from. *)
From Coq Require Import NArith List Lia Bool Arith.
From Verif.Model Require Import Base FrameSys MediaRead.
From Verif.Spec Require Import MediaReadSpec.
From Verif.Proofs Require Import BaseP TableP MediaReadP.
Import ListNotations.
Open Scope nat_scope.

Section Read.
(** [known f]: the reader had taken the frame before; [avail q k]: the [k]-th frame of group [q] can be read. *)
Context (known : rframe -> Prop) (avail : N -> nat -> Prop).

Definition taken_now (g : rgroup) (f : rframe) : Prop :=
  rf_seq f = rg_seq g /\ rf_idx f < rg_index g /\ avail (rg_seq g) (rf_idx f).
Definition good_buf (g : rgroup) : Prop := forall f, In f (rg_buf g) -> known f \/ taken_now g f.
Definition env_ok (g : rgroup) (env : list fans) : Prop :=
  forall i ts, nth_error env i = Some (FFrame ts) -> avail (rg_seq g) (rg_index g + i).

Lemma rg_frame_eq g ts : rg_frame g ts = (RFrame (rg_seq g) (rg_index g) ts,
   RG (rg_seq g) (S (rg_index g)) (rg_buf g) (Some (N.max (match rg_max g with Some m => m | None => 0%N end) ts))).
Proof. reflexivity. Qed.

Lemma buffer_good fuel cutoff : forall g env b g', buffer_until fuel cutoff g env = (b, g') ->
  good_buf g -> env_ok g env -> good_buf g' /\ rg_seq g' = rg_seq g.
Proof.
  induction fuel as [|fuel IH]; intros g env b g' H G V; cbn [buffer_until] in H; [injection H as _ <-; auto|].
  destruct (match rg_max g with Some m => if (cutoff <=? m)%N then Some m else None | None => None end); [injection H as _ <-; auto|].
  destruct (rg_buf g) as [|f rest] eqn:Eb.
  - destruct env as [|[ts| | |] env]; try (injection H as _ <-; auto).
    rewrite rg_frame_eq in H. apply IH in H.
    + destruct H as (A & B). auto.
    + intros x Hx. cbn [with_buf rg_buf rg_seq rg_index] in *. rewrite Eb in Hx. destruct Hx as [<-|[]]. right.
      split; [reflexivity|]. cbn. split; [lia|]. specialize (V 0 ts eq_refl). rewrite Nat.add_0_r in V. exact V.
    + intros i t Hi. cbn [with_buf rg_seq rg_index]. specialize (V (S i) t Hi). rewrite Nat.add_succ_r in V. exact V.
  - apply IH in H.
    + destruct H as (A & B). auto.
    + intros x Hx. cbn [with_buf rg_buf] in Hx. apply in_app_or in Hx.
      assert (I : In x (rg_buf g)) by (rewrite Eb; destruct Hx as [Hx|[<-|[]]]; [right; exact Hx|left; reflexivity]).
      exact (G x I).
    + exact V.
Qed.

Definition all_good (s : reader) : Prop :=
  (forall g, rd_cur s = Some g -> good_buf g) /\ (forall g, In g (rd_pending s) -> good_buf g).

Lemma pop_good s : (forall g, In g (rd_pending s) -> good_buf g) -> all_good (pop s).
Proof.
  intros P. unfold pop. destruct (rd_pending s) as [|g rest]; split; cbn; try discriminate; try tauto.
  - intros h [= <-]. apply P. left. reflexivity.
  - intros h Hh. apply P. right. exact Hh.
Qed.

Lemma buffering_good fuel cutoff bufs : forall s s' x, all_good s -> NoDup (map fst bufs) ->
  (forall i env g, In (i, env) bufs -> nth_error (rd_pending s) i = Some g -> env_ok g env) ->
  buffering fuel cutoff s bufs = (s', x) -> all_good s' /\ (forall f, x <> RGot f).
Proof.
  induction bufs as [|[i env] bufs IH]; intros s s' x G ND V H; cbn [buffering] in H.
  { injection H as <- <-. split; [exact G|discriminate]. }
  cbn [map fst] in ND. inversion ND as [|? ? NI ND']; subst.
  destruct (nth_error (rd_pending s) i) as [g|] eqn:E.
  - destruct (buffer_until fuel cutoff g env) as [b g'] eqn:B.
    destruct (buffer_good _ _ _ _ _ _ B) as (G' & Sq).
    { apply (proj2 G). eapply nth_error_In; exact E. }
    { apply (V i env g); [left; reflexivity|exact E]. }
    set (s1 := Rd (rd_cur s) (set_nth i g' (rd_pending s)) (rd_max s) (rd_lat s)) in *.
    assert (G1 : all_good s1).
    { split; [exact (proj1 G)|]. intros h Hh. cbn in Hh. apply in_set_nth in Hh. destruct Hh as [->|Hh]; [exact G'|]. apply (proj2 G). exact Hh. }
    assert (V1 : forall j e h, In (j, e) bufs -> nth_error (rd_pending s1) j = Some h -> env_ok h e).
    { intros j e h Hj Eh. apply (V j e); [right; exact Hj|]. cbn in Eh. rewrite nth_error_set_ne in Eh; [exact Eh|].
      intros ->. apply NI. apply in_map_iff. exists (j, e). auto. }
    destruct b.
    + injection H as <- <-. split; [|discriminate]. apply pop_good. intros h Hh. cbn [rd_pending] in Hh. apply (proj2 G1).
      eapply in_skipn. exact Hh.
    + eapply IH; eassumption.
    + injection H as <- <-. split; [exact G1|discriminate].
  - eapply IH; try eassumption. intros j e h Hj. apply V. right. exact Hj.
Qed.

Lemma new_good seq : good_buf (rg_new seq).
Proof. intros f []. Qed.

Lemma select_good fuel cutoff s next bufs s' x : all_good s -> NoDup (map fst bufs) ->
  (forall i env g, In (i, env) bufs -> nth_error (rd_pending s) i = Some g -> env_ok g env) ->
  select_rest fuel cutoff s next bufs = (s', x) -> all_good s' /\ (forall f, x <> RGot f).
Proof.
  intros G ND V H. unfold select_rest in H.
  assert (B : forall s1 y, buffering fuel cutoff s bufs = (s1, y) ->
    match y, rd_cur s1, next, rd_pending s1 with RWait, None, NEnd, [] => (s1, REnd) | _, _, _, _ => (s1, y) end = (s', x) ->
    all_good s' /\ (forall f, x <> RGot f)).
  { intros s1 y E H1. destruct (buffering_good _ _ _ _ _ _ G ND V E) as (G1 & N1).
    destruct y; try (injection H1 as <- <-; auto; fail).
    destruct (rd_cur s1); [injection H1 as <- <-; auto|]. destruct next; try (injection H1 as <- <-; auto; fail).
    destruct (rd_pending s1); injection H1 as <- <-; (split; [exact G1|discriminate]). }
  destruct next as [seq| | |].
  - destruct (rd_cur s) as [c|] eqn:Ec.
    + destruct (seq <? rg_seq c)%N; injection H as <- <-; (split; [|discriminate]); [exact G|].
      split; [rewrite <- Ec; exact (proj1 G)|]. cbn. intros h Hh. apply insert_in in Hh. destruct Hh as [->|Hh]; [apply new_good|apply (proj2 G); exact Hh].
    + injection H as <- <-. split; [|discriminate]. split; [|exact (proj2 G)]. cbn. intros h [= <-]. apply new_good.
  - destruct (buffering fuel cutoff s bufs) as [s1 y] eqn:E. eapply B; eauto.
  - injection H as <- <-. split; [exact G|discriminate].
  - destruct (buffering fuel cutoff s bufs) as [s1 y] eqn:E. eapply B; eauto.
Qed.

(** The answers given to [o] are true. *)
Definition op_ok (s : reader) (o : rop) : Prop :=
  match o with
  | RLatency _ => True
  | RPoll _ cur _ bufs =>
      (forall g ts, rd_cur s = Some g -> cur = FFrame ts -> avail (rg_seq g) (rg_index g)) /\
      NoDup (map fst bufs) /\
      (forall i env g, In (i, env) bufs -> nth_error (rd_pending s) i = Some g -> env_ok g env)
  end.

Lemma rstep_good s o s' x : all_good s -> op_ok s o -> rstep s o = (s', x) ->
  all_good s' /\ (forall f, x = RGot f -> exists g, rd_cur s' = Some g /\ (known f \/ taken_now g f)).
Proof.
  intros G V H. destruct o as [d|fuel cur next bufs]; cbn [rstep] in H.
  { injection H as <- <-. split; [exact G|discriminate]. }
  destruct V as (V1 & ND & V2).
  destruct (duration_max <? rd_max s + rd_lat s)%N; [injection H as <- <-; split; [exact G|discriminate]|].
  assert (R : select_rest fuel (rd_max s + rd_lat s) s next bufs = (s', x) ->
     all_good s' /\ (forall f, x = RGot f -> exists g, rd_cur s' = Some g /\ (known f \/ taken_now g f))).
  { intros E. destruct (select_good _ _ _ _ _ _ _ G ND V2 E) as (A & B). split; [exact A|]. intros f Ef. destruct (B f Ef). }
  destruct (rd_cur s) as [g|] eqn:Ec; [|exact (R H)].
  assert (Gg : good_buf g) by (apply (proj1 G); exact Ec).
  destruct (rg_buf g) as [|f rest] eqn:Eb.
  - destruct cur as [ts| | |].
    + rewrite rg_frame_eq in H. injection H as <- <-. split; [split|].
      * intros h Hh. cbn in Hh. injection Hh as <-. intros y Hy. cbn in Hy. rewrite Eb in Hy. destruct Hy.
      * exact (proj2 G).
      * intros f [= <-]. eexists. split; [reflexivity|]. right. split; [reflexivity|]. cbn. split; [lia|]. exact (V1 g ts eq_refl eq_refl).
    + injection H as <- <-. split; [|discriminate]. apply pop_good. exact (proj2 G).
    + injection H as <- <-. split; [exact G|discriminate].
    + exact (R H).
  - injection H as <- <-. split; [split|].
    + cbn. intros h [= <-]. intros y Hy. cbn [with_buf rg_buf] in Hy. apply Gg. rewrite Eb. right. exact Hy.
    + exact (proj2 G).
    + intros f' [= <-]. eexists. split; [reflexivity|]. apply Gg. rewrite Eb. left. reflexivity.
Qed.
End Read.

(** * Arrivals *)
Lemma buffering_arrivals fuel cutoff bufs : forall s s' x o, buffering fuel cutoff s bufs = (s', x) -> arrivals [(o, x)] = [].
Proof.
  induction bufs as [|[i env] bufs IH]; intros s s' x o H; cbn [buffering] in H; [injection H as _ <-; reflexivity|].
  destruct (nth_error (rd_pending s) i) as [g|]; [|eapply IH; exact H].
  destruct (buffer_until fuel cutoff g env) as [[ts| |] g']; [injection H as _ <-; reflexivity|eapply IH; exact H|injection H as _ <-; reflexivity].
Qed.
Lemma select_arrivals fuel cutoff s next bufs s' x o : select_rest fuel cutoff s next bufs = (s', x) ->
  arrivals [(o, x)] = match next with NGroup q => [q] | _ => [] end.
Proof.
  unfold select_rest. destruct next as [q| | |].
  - destruct (rd_cur s) as [c|]; [destruct (q <? rg_seq c)%N|]; intros [= _ <-]; reflexivity.
  - destruct (buffering fuel cutoff s bufs) as [s1 y] eqn:E. pose proof (buffering_arrivals _ _ _ _ _ _ o E) as A.
    destruct y; try (intros [= _ <-]; exact A; fail). destruct (rd_cur s1); [intros [= _ <-]; reflexivity|].
    destruct (rd_pending s1); intros [= _ <-]; reflexivity.
  - intros [= _ <-]. reflexivity.
  - destruct (buffering fuel cutoff s bufs) as [s1 y] eqn:E. pose proof (buffering_arrivals _ _ _ _ _ _ o E) as A.
    destruct y; try (intros [= _ <-]; exact A; fail). destruct (rd_cur s1); intros [= _ <-]; reflexivity.
Qed.
Lemma poll_arrivals fuel cur bufs s s' x : rstep s (RPoll fuel cur NWait bufs) = (s', x) -> forall o, arrivals [(o, x)] = [].
Proof.
  intros H o. cbn [rstep] in H. destruct (duration_max <? rd_max s + rd_lat s)%N; [injection H as _ <-; reflexivity|].
  destruct (rd_cur s) as [g|]; [|exact (select_arrivals _ _ _ _ _ _ _ o H)].
  destruct (rg_buf g); [|injection H as _ <-; reflexivity].
  destruct cur; [rewrite rg_frame_eq in H| | |exact (select_arrivals _ _ _ _ _ _ _ o H)]; injection H as _ <-; reflexivity.
Qed.
Lemma idle_arrivals fuel next bufs s s' x o : (duration_max <? rd_max s + rd_lat s)%N = false ->
  match rd_cur s with Some g => rg_buf g = [] | None => True end ->
  rstep s (RPoll fuel FWait next bufs) = (s', x) -> arrivals [(o, x)] = match next with NGroup q => [q] | _ => [] end.
Proof.
  intros D C H. cbn [rstep] in H. rewrite D in H. destruct (rd_cur s) as [g|]; [rewrite C in H|]; exact (select_arrivals _ _ _ _ _ _ _ o H).
Qed.
