(** Answering subscriptions. *)
From Coq Require Import NArith ZArith List Lia Bool.
From Coq Require Import Init.Byte Strings.Byte.
From Verif.Model Require Import Base Coding ErrorCode Stream Frame FrameSys Map OriginSys Message Publisher.
From Verif.Spec Require Import CodingSpec MessageSpec StreamSpec OriginSpec PublisherSpec.
From Verif.Proofs Require Import MessageP CodingTop StreamP OriginP OriginTop.
Import ListNotations.

Lemma answer_exact w ops s tr p m r rest : orun osys_new ops = (s, tr) -> producing s p -> asks w m r rest ->
  match active (sub_broadcast m) tr with
  | Some b => exists r', recv_subscribe w s p r = Serving b m r' /\ content r' = rest
  | None => recv_subscribe w s p r = Unserved NotFound
  end.
Proof.
  intros R P (W & ps & E & C). unfold recv_subscribe.
  pose proof (reader_decode_flat (subscribe_decode w) r (good_kind w KSubscribe)) as H.
  destruct (message_roundtrip w KSubscribe m rest W) as (ps' & E' & D). rewrite E in E'. injection E' as <-. 
  rewrite <- C in D. cbn in D.
  destruct (reader_decode (subscribe_decode w) r) as [a r']. destruct H as (H & _). unfold flat_decode in H.
  rewrite D in H. injection H as -> HC.
  rewrite (found_active _ _ _ _ _ R P). destruct (active (sub_broadcast m) tr); [|reflexivity].
  exists r'. auto.
Qed.

Lemma active_announced path tr b : active path tr = Some b -> In b (announced path tr).
Proof.
  unfold active, announced. induction tr as [|e tr IH] using rev_ind; [discriminate|].
  rewrite fold_left_app, flat_map_app, in_app_iff. cbn. rewrite app_nil_r.
  destruct e as [[] []]; cbn; auto; destruct (str_eqb _ path); cbn; auto; try discriminate.
  intros [= <-]. auto.
Qed.

Lemma answer_alive w ops s tr p m r rest bs : orun osys_new ops = (s, tr) -> producing s p -> asks w m r rest ->
  announced (sub_broadcast m) tr = bs -> (forall b, In b bs -> ~ ended b tr) ->
  match rev bs with
  | b :: _ => exists r', recv_subscribe w s p r = Serving b m r' /\ content r' = rest
  | [] => recv_subscribe w s p r = Unserved NotFound
  end.
Proof.
  intros R P A E N. pose proof (answer_exact w ops s tr p m r rest R P A) as H.
  destruct (rev bs) as [|b l] eqn:EB.
  - apply (f_equal (@rev nat)) in EB. rewrite rev_involutive in EB. cbn in EB. rewrite EB in E.
    destruct (active (sub_broadcast m) tr) as [b|] eqn:X; [|exact H].
    apply active_announced in X. rewrite E in X. destruct X.
  - apply (f_equal (@rev nat)) in EB. rewrite rev_involutive in EB. cbn in EB. rewrite EB in *.
    pose proof (found_last _ _ _ _ _ _ _ R P E N) as F.
    rewrite (found_active _ _ _ _ _ R P) in F. injection F as F. rewrite F in H. exact H.
Qed.
