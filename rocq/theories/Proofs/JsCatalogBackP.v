(** A catalog with peers by name before the Rust library. *)
From Coq Require Import NArith.
From Coq Require Import Strings.String.
From Coq Require Import List Bool Lia.
From Coq Require Import Init.Byte Strings.Byte.
From Verif.Model Require Import Base Map Text Codec Json Native Catalog CatalogJson.
From Verif.Spec Require Import CodingSpec CodecSpec NativeSpec JsonSpec CatalogJsonSpec JsCatalogSpec.
From Verif.Proofs Require Import BaseP MapP JsonP CatalogJsonP TokenP.
Import ListNotations.
Open Scope N_scope.

Lemma holds_once names least v k x y : structure names least v -> In (text k) names -> NoDup names ->
  holds names v (text k) x -> holds names v (text k) y -> x = y.
Proof.
  destruct v as [| | | |vs|es]; cbn [holds structure]; try tauto.
  - intros _ _ ND (i & I & X) (j & J & Y). assert (i = j); [|congruence].
    apply (proj1 (NoDup_nth_error names) ND); [apply nth_error_Some; congruence|congruence].
  - intros (_ & U) M _ (r & I & T) (r' & I' & T'). apply In_nth_error in I as [i I]. apply In_nth_error in I' as [j J].
    pose proof (U _ _ _ _ _ I J T T' M). subst j. congruence.
Qed.
Section Floats.
Context {F64 F32 : Type} (f64_of : bytes -> option F64) (f32_of : bytes -> option F32) (f32_0 f32_1 : F32) (u : unicode).
Lemma peers_numbered s c : parse_catalog f64_of f32_of f32_0 f32_1 u s = Got c -> forall k, names_peer s k -> json_number k /\ exists n, counts k n /\ n <= u32_max.
Proof.
  intros G k (v & o & p & x & D & HL & HP & HI).
  unfold parse_catalog in G. rewrite (proj2 (read_json_exact _ _) D) in G.
  apply reads_catalog in G; [|exact (document_wf _ _ D)]. destruct G as (SV & _ & _ & ML).
  destruct (ct_location c) as [l|]; cbn [may] in ML.
  - destruct ML as (o' & HL' & SO & _ & _ & MP & _).
    assert (o' = JObj o) by (eapply (holds_once catalog_names); eauto; [cbn; auto|repeat constructor; cbn; intuition discriminate]). subst o'.
    destruct MP as [(p' & HP' & PM)|[NP _]]; [|exfalso; exact (NP _ HP)].
    assert (p' = JObj p) by (eapply (holds_once location_names); eauto; [cbn; auto|repeat constructor; cbn; intuition discriminate]). subst p'.
    destruct PM as (es & m & [= <-] & _ & F). clear - F HI. induction F as [|e f es m (A & B & C & _) F IH]; [destruct HI|].
    destruct HI as [-> |HI]; [|auto]. cbn in *. eauto.
  - specialize (ML _ HL). discriminate ML.
Qed.
End Floats.
