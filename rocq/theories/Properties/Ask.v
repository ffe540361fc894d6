(** C147: a subscription reaches the broadcast it is for. *)
From Coq Require Import NArith ZArith List Lia Bool.
From Coq Require Import Init.Byte Strings.Byte.
From Verif.Model Require Import OriginSys Base Coding Message ErrorCode Stream Frame FrameSys Map Publisher ReceiverSys Spread SpreadAsk.
From Verif.Spec Require Import OriginSpec SpreadSpec AskSpec.
From Verif.Proofs Require Import SpreadAskP.
From Verif.Properties Require Import Spread.
Import ListNotations.
Open Scope nat_scope.

(** At rest, subscribing to what is found at a path goes back, session by session, to a broadcast that some
    application published, that is announced there under this path, and that has not ended.
    Missing for the full claim: sessions asked for a prefix, where it is false (below). *)
Theorem C147_reaches_partial : forall ops s tr n path b, sprun spread_new ops = (s, tr) -> once tr -> at_rest s -> unprefixed tr ->
  origin_made tr n -> finds s n path b ->
  exists b0 hs, delivers s b b0 /\ comes tr n path b0 hs /\ ~ was_ended tr b0 /\ forall h, In h hs -> ~ was_cut tr h.
Proof. intros ops s tr n path b R One Rest Un M F. exact (found_delivers ops s tr R One Rest Un n path b M F). Qed.
Print Assumptions C147_reaches_partial.

(** And to that one only. *)
Theorem C147_one : forall ops s tr b x y, sprun spread_new ops = (s, tr) -> delivers s b x -> delivers s b y -> x = y.
Proof. intros ops s tr b x y R. exact (delivers_one ops s tr R b x y). Qed.
Print Assumptions C147_one.

(** In the example of C140, "m/x" at the third program is "x" of the first. *)
Example C147_example : unprefixed (snd (sprun spread_new (setup ++ settle))) /\
  finds (fst (sprun spread_new (setup ++ settle))) 2 [x6d; x2f; x78] 2 /\ delivers (fst (sprun spread_new (setup ++ settle))) 2 0.
Proof.
  split; [|split; [vm_compute; reflexivity|]].
  - let v := eval vm_compute in (acts (snd (sprun spread_new (setup ++ settle)))) in assert (V : acts (snd (sprun spread_new (setup ++ settle))) = v) by (vm_compute; reflexivity).
    revert V. generalize (snd (sprun spread_new (setup ++ settle))). intros tr V a pre ks b add x I _. apply in_acts in I; [|exact Logic.I]. rewrite V in I. cbn in I. intuition congruence.
  - let v := eval vm_compute in (fst (sprun spread_new (setup ++ settle))) in assert (V : fst (sprun spread_new (setup ++ settle)) = v) by (vm_compute; reflexivity). rewrite V.
    eapply (delivers_asked _ 0); [reflexivity|vm_compute; reflexivity|vm_compute; reflexivity|]. apply delivers_own. vm_compute. auto.
Qed.

(** With a prefix the peer is asked for another path.  Origin 0 has "mmx" and "mx"; a session asked for "m" shows
    "mmx" as "x"; who subscribes to it gets the tracks of "mx". *)
Definition mixed : list spop :=
  [SNode; SNode; SNew; SNew; SHop 0 [x6d] [] 1 []; SPublish 0 [x6d; x6d; x78] 0; SPublish 0 [x6d; x78] 1] ++ concat (repeat round 12).
Lemma mixed_once n : match n with 0 | 1 => NoDup (map fst (given n (snd (sprun spread_new mixed)))) | _ => True end.
Proof.
  destruct n as [|[|k]]; [| |exact Logic.I].
  - let v := eval vm_compute in (map fst (given 0 (snd (sprun spread_new mixed)))) in replace (map fst (given 0 (snd (sprun spread_new mixed)))) with v by (vm_compute; reflexivity).
    repeat (constructor; [cbn; intuition congruence|]). constructor.
  - let v := eval vm_compute in (map fst (given 1 (snd (sprun spread_new mixed)))) in replace (map fst (given 1 (snd (sprun spread_new mixed)))) with v by (vm_compute; reflexivity).
    repeat (constructor; [cbn; intuition congruence|]). constructor.
Qed.
Theorem C147_refuted : exists ops s tr n path b b1, sprun spread_new ops = (s, tr) /\ once tr /\ at_rest s /\ origin_made tr n /\
  finds s n path b /\ delivers s b b1 /\ forall hs, ~ comes tr n path b1 hs.
Proof.
  exists mixed, (fst (sprun spread_new mixed)), (snd (sprun spread_new mixed)), 1, [x78], 2, 1. split; [apply surjective_pairing|].
  split.
  { intros n (x & I & M).
    pose proof (mixed_once n) as Z.
    destruct n as [|[|k]]; [exact Z|exact Z|]. exfalso.
    assert (K : forallb (fun e => match e with (SNode, y) => match so_made y with Some m => Nat.ltb m 2 | None => true end | _ => true end) (snd (sprun spread_new mixed)) = true) by (vm_compute; reflexivity).
    rewrite forallb_forall in K. specialize (K _ I). cbn in K. rewrite M in K. discriminate. }
  split; [rests mixed|]. split; [apply (made_at _ 1 (SpOut [] (Some 1) true)); vm_compute; reflexivity|]. split; [vm_compute; reflexivity|]. split.
  - let v := eval vm_compute in (fst (sprun spread_new mixed)) in assert (V : fst (sprun spread_new mixed) = v) by (vm_compute; reflexivity). rewrite V.
    eapply (delivers_asked _ 0); [reflexivity|vm_compute; reflexivity|vm_compute; reflexivity|]. apply delivers_own. vm_compute. auto.
  - let v := eval vm_compute in (acts (snd (sprun spread_new mixed))) in assert (V : acts (snd (sprun spread_new mixed)) = v) by (vm_compute; reflexivity).
    revert V. generalize (snd (sprun spread_new mixed)). intros tr V hs Co.
    inversion Co as [n p b1 x I O|o a p n q1 b1 hs1 C1 L]; subst.
    + apply in_acts in I; [|exact Logic.I]. rewrite V in I. cbn in I. intuition congruence.
    + inversion L as [a1 pre ks b2 add x s I O|a1 pre ks b2 add x s h I O]; subst; (apply in_acts in I; [|exact Logic.I]); rewrite V in I; cbn in I; [intuition congruence|].
      destruct I as [[= <- <- <- <- <-]|I]; [|intuition congruence]. cbn in *. subst s.
      inversion C1 as [n p b1 y I O1|o a p n q1 b1 hs2 C2 L2]; subst.
      * apply in_acts in I; [|exact Logic.I]. rewrite V in I. cbn in I. intuition congruence.
      * inversion L2 as [a1 pre ks b2 add z s I O1|a1 pre ks b2 add z s h0 I O1]; subst; (apply in_acts in I; [|exact Logic.I]); rewrite V in I; cbn in I; intuition congruence.
Qed.
Print Assumptions C147_refuted.
