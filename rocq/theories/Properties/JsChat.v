From Coq Require Import NArith List Bool Arith Lia.
From Verif.Model Require Import JsChat JsPeers.
From Verif.Spec Require Import JsChatSpec JsPeersSpec.
From Verif.Proofs Require Import JsChatP JsPeersP.
Import ListNotations.
Open Scope nat_scope.

(** * C209: a chat message is there for as long as it should

    The claim: until the chat is closed, those who join see the last message, if it was not cleared and has not been there for as long as the
    setting said when it was published, and otherwise none.  Proved if the setting is never zero, which is taken for no limit. *)
Theorem C209_partial : forall ops, Forall plain ops -> seen (snd (h_run h_init ops)) = due (snd (h_run h_init ops)).
Proof. exact seen_due. Qed.
Print Assumptions C209_partial.

Definition zero : list hop := [HTtl (Some 0%N); HPublish 7; HWait 1000%N].
Theorem C209_refuted : exists ops, ~ In HClose ops /\ due (snd (h_run h_init ops)) = None /\ seen (snd (h_run h_init ops)) = Some 7.
Proof. exists zero. split; [cbn; intuition discriminate|split; reflexivity]. Qed.
Print Assumptions C209_refuted.

(** A message that replaces another is not ended by the timer of that one, even if it was cleared in between. *)
Definition talk : list hop := [HTtl (Some 10%N); HPublish 1; HWait 6%N; HClear; HPublish 2; HWait 6%N].
Example C209_talk : Forall plain talk /\ seen (snd (h_run h_init talk)) = Some 2 /\ seen (snd (h_run h_init (talk ++ [HWait 4%N]))) = None.
Proof. split; [repeat constructor|split; reflexivity]. Qed.

(** * C210: groups of a chat end before the next *)
Theorem C210_groups : forall ops, ended_before (snd (h_run h_init ops)).
Proof. exact groups. Qed.
Print Assumptions C210_groups.
Example C210_two : exists a b, snd (h_run h_init talk) = a ++ OGroup 2 :: b /\ In (OGroup 1) a /\ In (OGroup 0) a.
Proof.
  exists [ITtl (Some 10%N); IPublish 1; OGroup 0; OFrame 0 1; IWait 6%N; IClear; OEnd 0; OGroup 1; IPublish 2; OEnd 1], [OFrame 2 2; IWait 6%N].
  split; [reflexivity|]. cbn. tauto.
Qed.

(** * C211: the peers that are asked for their position

    The claim: a handle is in the catalog, and has a track, if and only if an open peer has it.  Proved if no peer ever has a handle that another
    open one has or was made with. *)
Theorem C211_partial : forall ops, always apart ops ->
  forall h, (In h (p_cat (p_run ops)) <-> wanted ops h) /\ (In h (p_tracks (p_run ops)) <-> wanted ops h).
Proof. exact listed. Qed.
Print Assumptions C211_partial.

(** Nothing else is listed, whatever the handles. *)
Theorem C211_no_more : forall ops h, In h (p_cat (p_run ops)) -> wanted ops h.
Proof. exact no_more. Qed.
Print Assumptions C211_no_more.

(** Two peers with the same handle: closing one ends both. *)
Theorem C211_refuted : exists ops h, wanted ops h /\ ~ In h (p_cat (p_run ops)) /\ ~ In h (p_tracks (p_run ops)).
Proof. exists [PNew (Some 5); PNew (Some 5); PClose 0], 5. split; [exists 1, (Some 5); cbn; tauto|cbn; tauto]. Qed.
Print Assumptions C211_refuted.

Lemma always_nil (P : list pop -> Prop) : P [] -> always P [].
Proof. intros H a b E. symmetry in E. apply app_eq_nil in E. destruct E as [-> _]. exact H. Qed.
Lemma always_snoc P ops o : always P ops -> P (ops ++ [o]) -> always P (ops ++ [o]).
Proof.
  intros H K a b E. destruct b as [|y b _] using rev_ind; [rewrite app_nil_r in E; subst; exact K|]. rewrite app_assoc in E. apply app_inj_tail in E.
  destruct E as [E _]. eapply H, E.
Qed.
(** Even if no two have the same at a time: a peer that has left its first handle for another, when closed, ends the one that has it now. *)
Definition moved : list pop := [PNew (Some 5); PSet 0 (Some 6); PNew (Some 5); PClose 0].
Ltac peers_ := intros i j f c f' h N H K; unfold opened in H, K; cbn in H, K;
  destruct i as [|[|i]], j as [|[|j]]; cbn in H, K; try (exfalso; apply N; reflexivity);
  repeat match goal with
  | H : _ \/ _ |- _ => destruct H as [H|H] | H : _ /\ _ |- _ => destruct H | H : exists _, _ |- _ => destruct H | H : False |- _ => destruct H
  end; subst; try discriminate; try split; congruence.
Theorem C211_moved_refuted : exists ops h, always unlike ops /\ wanted ops h /\ ~ In h (p_cat (p_run ops)) /\ ~ In h (p_tracks (p_run ops)).
Proof.
  exists moved, 5. split; [|split; [exists 1, (Some 5); cbn; tauto|cbn; tauto]]. unfold moved.
  apply (always_snoc _ [PNew (Some 5); PSet 0 (Some 6); PNew (Some 5)]); [apply (always_snoc _ [PNew (Some 5); PSet 0 (Some 6)]); [apply (always_snoc _ [PNew (Some 5)]);
    [apply (always_snoc _ []); [apply always_nil|]|]|]|]; peers_.
Qed.
Print Assumptions C211_moved_refuted.

Definition asked : list pop := [PNew (Some 5); PNew None; PSet 1 (Some 6); PClose 0].
Example C211_asked : always apart asked /\ wanted asked 6 /\ ~ wanted asked 5.
Proof.
  split; [|split; [exists 1, None; cbn; intuition eauto|]].
  - unfold asked.
    apply (always_snoc _ [PNew (Some 5); PNew None; PSet 1 (Some 6)]); [apply (always_snoc _ [PNew (Some 5); PNew None]); [apply (always_snoc _ [PNew (Some 5)]);
      [apply (always_snoc _ []); [apply always_nil|]|]|]|]; peers_.
  - intros (i & f & H). unfold opened in H. cbn in H. destruct i as [|[|i]]; cbn in H; intuition congruence.
Qed.
