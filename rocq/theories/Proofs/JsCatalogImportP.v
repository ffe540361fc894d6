(** The catalogs of imported movies before the JavaScript library. *)
From Coq Require Import NArith Arith List Bool Lia.
From Coq Require Import Strings.String.
From Coq Require Import Init.Byte Strings.Byte.
From Verif.Model Require Import Base Text Codec Json Catalog CatalogJson Import ImportCodec JsCatalog.
From Verif.Spec Require Import CodingSpec CodecSpec NativeSpec JsonSpec CatalogJsonSpec ImportCodecSpec JsCatalogSpec.
From Verif.Proofs Require Import CatalogPrintP ImportCodecP ImportReadP JsCatalogP.
Import ListNotations.
Open Scope N_scope.
Open Scope list_scope.

Section Floats.
Context {F64 F32 : Type} (f64_text : F64 -> option bytes) (f32_text : F32 -> option bytes).
Lemma lists_for_web nulls ks l (c : @catalog_info F64 F32) : Forall2 described ks l -> Forall trak_value ks -> lists l c ->
  catalog_value c /\ for_web f64_text f32_text nulls c.
Proof.
  intros D V (Lv & La & Lo).
  destruct (movie_value f64_text (fun _ => None) {| uni_digit := fun _ => false; uni_word := fun _ => false |} ks l D V) as (A & B & _).
  split; [split; [rewrite Lv; exact A|split; [rewrite La; exact B|intros o E; congruence]]|].
  unfold for_web. rewrite Lv, La. clear Lv La A B. split; [|split; [|intros o E; congruence]].
  - clear V. induction D as [|k r ks l D F IH]; [constructor|]. unfold described in D.
    destruct (mt_hdlr k), r as [i|i]; try contradiction; unfold videos; cbn [flat_map app]; [|exact IH].
    constructor; [|exact IH]. destruct D as (_ & e & v & _ & _ & _ & _ & _ & _ & _ & Fb & Ff & _ & Fr & _).
    unfold video_for_web, within. rewrite Fb, Ff, Fr. repeat split; intros; discriminate.
  - induction D as [|k r ks l D F IH]; [constructor|]. inversion_clear V as [|? ? Vk Vs]. specialize (IH Vs). unfold described in D.
    destruct (mt_hdlr k), r as [i|i]; try contradiction; unfold audios; cbn [flat_map app]; [exact IH|].
    constructor; [|exact IH]. destruct Vk as [_ Ev]. destruct D as (_ & _ & e & Ee & M). rewrite Ee in Ev. inversion_clear Ev as [|? ? V _].
    destruct e as [v0 c0|v0 c0|v0 c0|v0|v0 c0|v0 c0|a d|a|n|]; try contradiction; cbn [entry_value] in V.
    + destruct V as (_ & V3 & V4). destruct M as (_ & _ & _ & m & [Lm _] & E4). rewrite E4. intros n [= <-].
      change (2 ^ 32) with 4294967296 in *. unfold u32_max. destruct Lm; subst; lia.
    + destruct M as (_ & _ & _ & E4). rewrite E4. intros n [=].
Qed.
Lemma first_ones {A B} (P : A -> B -> Prop) n : forall l m, Forall2 P l m -> Forall2 P (firstn n l) (firstn n m).
Proof. induction n as [|n IH]; intros l m H; cbn; [constructor|]. destruct H; constructor; auto. Qed.
Lemma first_all {A} (P : A -> Prop) n : forall l, Forall P l -> Forall P (firstn n l).
Proof. induction n as [|n IH]; intros l H; cbn; [constructor|]. destruct H; constructor; auto. Qed.
Theorem import_for_web nulls ks (m : movie F64 F32) o :
  (forall x t, f64_text x = Some t -> json_number t) -> (forall x t, f32_text x = Some t -> json_number t) ->
  init_movie ks movie_new = (m, o) -> Forall trak_value ks ->
  forall c, In c (mo_published m) -> js_decodes (print_catalog f64_text f32_text nulls c) = true.
Proof.
  intros N64 N32 E V c I.
  assert (M : exists ks1, Forall trak_value ks1 /\ made_of ks1 m).
  { destruct o as [e|].
    - destruct (imported_some ks e m E) as (ks1 & k & ks2 & -> & _ & _ & _ & Mk). apply Forall_app in V as [V _]. eauto.
    - destruct (imported_all ks m E) as [_ Mk]. eauto. }
  destruct M as (ks1 & V1 & D & _ & _ & P & _). apply In_nth_error in I as [i I].
  destruct (lists_for_web nulls _ _ c (first_ones described (S i) _ _ D) (first_all _ (S i) _ V1) (P _ _ I)) as [CV W].
  apply web_decodes; assumption.
Qed.
End Floats.
