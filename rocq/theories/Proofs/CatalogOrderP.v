(** The order of the members, and members unknown, do not matter. *)
From Coq Require Import NArith Arith.
From Coq Require Import Strings.String.
From Coq Require Import List Lia Bool Permutation.
From Coq Require Import Init.Byte Strings.Byte.
From Verif.Model Require Import Base Map Text Codec Json Native Catalog CatalogJson.
From Verif.Spec Require Import CodingSpec CodecSpec NativeSpec JsonSpec CatalogJsonSpec.
From Verif.Proofs Require Import JsonP CatalogJsonP.
Import ListNotations.

Definition alike (names : list bytes) (v w : json) : Prop :=
  (forall least, structure names least v <-> structure names least w) /\ (forall k x, In k names -> holds names v k x <-> holds names w k x).
Lemma has_alike {A} names v w k (P : json -> A -> Prop) a : alike names v w -> In (text k) names -> has names v k P a <-> has names w k P a.
Proof. intros [_ H] I. unfold has. split; intros (x & X & Px); exists x; (split; [apply H; assumption|exact Px]). Qed.
Lemma may_alike {A} names v w k (P : json -> A -> Prop) a : alike names v w -> In (text k) names -> may names v k P a <-> may names w k P a.
Proof.
  intros L I. destruct a as [a|]; cbn [may]; [apply has_alike; assumption|]. destruct L as [_ H]. split; intros G x X; apply G, H; assumption.
Qed.
Lemma or_alike {A} names v w k (P : json -> A -> Prop) d a : alike names v w -> In (text k) names -> or_else names v k P d a <-> or_else names w k P d a.
Proof.
  intros L I. unfold or_else. rewrite (has_alike _ _ _ _ P a L I). destruct L as [_ H].
  split; (intros [G|[G E]]; [left; exact G|right; split; [|exact E]; intros x X; apply (G x), H; assumption]).
Qed.

Lemma permuted_alike names es fs : Permutation es fs -> alike names (JObj es) (JObj fs).
Proof.
  assert (One : forall es fs, Permutation es fs -> forall least, structure names least (JObj es) -> structure names least (JObj fs)).
  { clear. intros es fs P least [T O]. split.
    - rewrite Forall_forall in *. intros e I. apply T. eapply Permutation_in; [apply Permutation_sym; exact P|exact I].
    - apply Permutation_nth_error in P. destruct P as (_ & g & Inj & G). intros i j e f k A B TA TB I. apply Inj. rewrite G in A, B. eapply O; eassumption. }
  intros P. split; [intros least; split; apply One; [exact P|apply Permutation_sym; exact P]|].
  intros k x _. cbn [holds]. split; intros (raw & I & T); exists raw; (split; [|exact T]); eapply Permutation_in; try exact I; [exact P|apply Permutation_sym; exact P].
Qed.
Lemma unknown_alike names raw k x es : text_of raw k -> ~ In k names -> alike names (JObj ((raw, x) :: es)) (JObj es).
Proof.
  intros T N. assert (U : forall k', text_of raw k' -> k' = k) by (intros k' H; apply string_of_complete in H, T; congruence). split.
  - intros least. cbn [structure]. split; intros [F O]; split.
    + inversion F; assumption.
    + intros i j e f k' A B TA TB I. specialize (O (S i) (S j) e f k' A B TA TB I). congruence.
    + constructor; [exists k; exact T|exact F].
    + intros [|i] [|j] e f k' A B TA TB I; [reflexivity| | |f_equal; eapply O; eassumption].
      * cbn in A. injection A as <-. cbn in TA. apply U in TA. subst k'. contradiction.
      * cbn in B. injection B as <-. cbn in TB. apply U in TB. subst k'. contradiction.
  - intros k' y I. cbn [holds]. split.
    + intros (r & [[= <- <-]|J] & Tr); [apply U in Tr; subst; contradiction|exists r; auto].
    + intros (r & J & Tr). exists r. split; [right; exact J|exact Tr].
Qed.
Section Floats.
Context {F64 F32 : Type} (f64_of : bytes -> option F64) (f32_of : bytes -> option F32) (f32_0 f32_1 : F32) (u : unicode).
Lemma catalog_alike v w c : alike catalog_names v w -> is_catalog f64_of f32_of f32_0 f32_1 u v c <-> is_catalog f64_of f32_of f32_0 f32_1 u w c.
Proof.
  intros L. unfold is_catalog. cbv zeta. rewrite (proj1 L). rewrite (or_alike _ v w "video" _ _ _ L) by inb. rewrite (or_alike _ v w "audio" _ _ _ L) by inb.
  rewrite (may_alike _ v w "location" _ _ L) by inb. reflexivity.
Qed.
Theorem catalog_reordered es fs s t c : document (JObj es) s -> document (JObj fs) t ->
  Permutation es fs -> parse_catalog f64_of f32_of f32_0 f32_1 u s = Got c <-> parse_catalog f64_of f32_of f32_0 f32_1 u t = Got c.
Proof.
  intros D E P.
  assert (X : forall v s, document v s -> parse_catalog f64_of f32_of f32_0 f32_1 u s = Got c <-> is_catalog f64_of f32_of f32_0 f32_1 u v c).
  { clear. intros v s D. rewrite parse_catalog_exact. split; [|intros H; exists v; auto]. intros (v' & D' & H).
    apply read_json_exact in D, D'. assert (v = v') as -> by congruence. exact H. }
  rewrite (X _ _ D), (X _ _ E). apply catalog_alike, permuted_alike, P.
Qed.
Theorem catalog_unknown_ignored raw k x es s t c : document (JObj ((raw, x) :: es)) s -> document (JObj es) t -> text_of raw k -> ~ In k catalog_names ->
  parse_catalog f64_of f32_of f32_0 f32_1 u s = Got c <-> parse_catalog f64_of f32_of f32_0 f32_1 u t = Got c.
Proof.
  intros D E T N.
  assert (X : forall v s, document v s -> parse_catalog f64_of f32_of f32_0 f32_1 u s = Got c <-> is_catalog f64_of f32_of f32_0 f32_1 u v c).
  { clear. intros v s D. rewrite parse_catalog_exact. split; [|intros H; exists v; auto]. intros (v' & D' & H).
    apply read_json_exact in D, D'. assert (v = v') as -> by congruence. exact H. }
  rewrite (X _ _ D), (X _ _ E). apply catalog_alike. eapply unknown_alike; eassumption.
Qed.
End Floats.
