(** C99-C103: how the relays of a cluster find each other. *)
From Coq Require Import NArith List Bool Lia.
From Coq Require Import Init.Byte Strings.Byte.
From Verif.Model Require Import Base Map OriginSys Discovery.
From Verif.Spec Require Import DiscoverySpec.
From Verif.Proofs Require Import DiscoveryP.
Import ListNotations.

Definition host_r : bytes := ["r"%byte].
Definition host_a : bytes := ["a"%byte].
Definition host_b : bytes := ["b"%byte].
Definition root_cfg : config := Config (Some host_r) (Some host_r) (Some ["p"%byte]).
Definition leaf_cfg : config := Config (Some host_r) (Some host_a) (Some ["p"%byte]).
(** Relay [a] starts, hears of itself and of [b], fails to reach [b] once, then reaches it and loses it. *)
Definition day : list dop :=
  [DStart; DRoot true; DAnnounce (place leaf_cfg host_a) 0; DAnnounce (place leaf_cfg host_b) 1; DNext; DNext; DNext; DPoll 0;
   DResult 0 false; DWake 0; DResult 0 true; DLost 0; DWake 0; DResult 0 true].
Example day_trace : map snd (snd (drun leaf_cfg disco_new day)) =
  [[EDialRoot host_r]; [EAnnounce (place leaf_cfg host_a)]; []; []; []; []; []; [EDial 0 host_b];
   []; [EDial 0 host_b]; [EOpen 0 host_b]; []; [EDial 0 host_b]; [EOpen 1 host_b]].
Proof. reflexivity. Qed.

(** ** C99: a relay connects only to other relays of its cluster that the root announces *)
Theorem C99_dials : forall c ops s tr o h, drun c disco_new ops = (s, tr) ->
  (exists i, In (EDial i h) (snd (dstep c s o))) \/ (exists j, In (EOpen j h) (snd (dstep c s o))) ->
  exists b, told c tr h b /\ ~ retracted tr b /\ cf_advertise c <> Some h.
Proof. exact only_told. Qed.
Print Assumptions C99_dials.
Example C99_meets : In (EDial 0 host_b) (snd (dstep leaf_cfg (fst (drun leaf_cfg disco_new (firstn 7 day))) (DPoll 0))).
Proof. vm_compute. auto. Qed.

(** ** C100: a relay connects to every other relay announced, and does not give up *)
Theorem C100_found : forall c ops s tr h b, drun c disco_new ops = (s, tr) -> at_rest c s ->
  told c tr h b -> cf_advertise c <> Some h -> ~ retracted tr b ->
  exists i, In (EDial i h) (deffects tr) /\ pursues c s tr i h.
Proof. exact found. Qed.
Print Assumptions C100_found.
Example C100_meets : let s := fst (drun leaf_cfg disco_new day) in let tr := snd (drun leaf_cfg disco_new day) in
  at_rest leaf_cfg s /\ told leaf_cfg tr host_b 1 /\ cf_advertise leaf_cfg <> Some host_b /\ ~ retracted tr 1.
Proof.
  cbv zeta. split; [split; [vm_compute; reflexivity|intros [|[|i]]; vm_compute; reflexivity]|]. split; [vm_compute; tauto|]. split; [discriminate|].
  intros [x H]. vm_compute in H. repeat (destruct H as [H|H]; [discriminate H|]). destruct H.
Qed.

(** ** C101: with a relay that was withdrawn no session stays open, and with any at most one is open *)
Definition C101_closed : Prop := forall c ops s tr j h, drun c disco_new ops = (s, tr) -> at_rest c s ->
  In (j, h) (open_links tr) -> exists b, told c tr h b /\ ~ retracted tr b.
Theorem C101_closed_refuted : exists c ops s tr j h, drun c disco_new ops = (s, tr) /\ at_rest c s /\
  In (j, h) (open_links tr) /\ forall b, told c tr h b -> retracted tr b.
Proof.
  exists leaf_cfg, (day ++ [DGone 1; DPoll 0]). do 2 eexists. exists 1, host_b. split; [apply surjective_pairing|].
  split; [split; [vm_compute; reflexivity|intros [|[|i]]; vm_compute; reflexivity]|]. split; [vm_compute; auto|].
  intros b H. unfold told in H. vm_compute in H. repeat (destruct H as [H|H]; [try discriminate H|]); [|destruct H].
  injection H as <-. exists []. vm_compute. tauto.
Qed.
Print Assumptions C101_closed_refuted.

Definition C101_one : Prop := forall c ops s tr h, drun c disco_new ops = (s, tr) -> length (open_with h tr) <= 1.
(** Announced, withdrawn and announced again, the relay is connected to twice. *)
Theorem C101_one_refuted : exists c ops s tr h, drun c disco_new ops = (s, tr) /\ length (open_with h tr) = 2.
Proof.
  exists leaf_cfg, (day ++ [DGone 1; DPoll 0; DAnnounce (place leaf_cfg host_b) 2; DNext; DPoll 1; DResult 1 true]). do 2 eexists. exists host_b.
  split; [apply surjective_pairing|]. vm_compute. reflexivity.
Qed.
Print Assumptions C101_one_refuted.
(** At most one per announcement. *)
Theorem C101_one_partial : forall c ops s tr h, drun c disco_new ops = (s, tr) -> length (open_with h tr) <= times_told c tr h.
Proof. exact links_bound. Qed.
Print Assumptions C101_one_partial.
Example C101_meets : let tr := snd (drun leaf_cfg disco_new day) in open_with host_b tr = [(1, host_b)] /\ times_told leaf_cfg tr host_b = 1.
Proof. vm_compute. auto. Qed.

(** ** C102: any two relays of a cluster exchange their broadcasts *)
(** The root connects to nobody and announces itself to nobody ... *)
Theorem C102_root : forall c ops y, is_root c -> In y (deffects (snd (drun c disco_new ops))) -> match y with EReturn | EBad => True | _ => False end.
Proof. exact root_silent. Qed.
Print Assumptions C102_root.
(** ... so, announced only what relays announce of themselves, no relay exchanges broadcasts with the root. *)
Definition C102_mesh : Prop := forall c ops s tr root, drun c disco_new ops = (s, tr) -> at_rest c s -> cf_connect c = Some root ->
  In (EAnnounce (place c match cf_advertise c with Some me => me | None => [] end)) (deffects tr) -> open_with root tr <> [].
Theorem C102_apart : forall c root ops s tr, cf_connect c = Some root ->
  drun c disco_new ops = (s, tr) -> (forall b, ~ told c tr root b) -> open_with root tr = [].
Proof.
  intros c root ops s tr _ E N. pose proof (links_bound _ _ _ _ root E) as B. fold (open_with root tr) in B.
  assert (Z : times_told c tr root = 0).
  { unfold times_told. destruct (filter _ tr) as [|e l] eqn:F; [reflexivity|]. exfalso. assert (H : In e (filter (fun e => match e with
    | (DAnnounce p _, []) => if list_eq_dec Byte.byte_eq_dec p (place c root) then true else false
    | _ => false end) tr)) by (rewrite F; left; reflexivity). apply filter_In in H. destruct H as [H P]. destruct e as [o x]. destruct o as [| |p b| | | | | | |], x; try discriminate.
    destruct (list_eq_dec Byte.byte_eq_dec p (place c root)) as [->|]; [|discriminate]. exact (N b H). }
  destruct (open_with root tr); [reflexivity|cbn in B; lia].
Qed.
Print Assumptions C102_apart.
Example C102_meets : let s := fst (drun leaf_cfg disco_new day) in let tr := snd (drun leaf_cfg disco_new day) in
  at_rest leaf_cfg s /\ In (EAnnounce (place leaf_cfg host_a)) (deffects tr) /\ open_with host_r tr = [] /\ is_root root_cfg.
Proof.
  cbv zeta. split; [split; [vm_compute; reflexivity|intros [|[|i]]; vm_compute; reflexivity]|]. split; [vm_compute; auto|]. split; [vm_compute; reflexivity|right; reflexivity].
Qed.
Theorem C102_mesh_refuted : exists c ops s tr root, drun c disco_new ops = (s, tr) /\ at_rest c s /\ cf_connect c = Some root /\
  In (EAnnounce (place c match cf_advertise c with Some me => me | None => [] end)) (deffects tr) /\ open_with root tr = [].
Proof.
  exists leaf_cfg, day. do 2 eexists. exists host_r. destruct C102_meets as (R & A & O & _). split; [apply surjective_pairing|].
  split; [exact R|]. split; [reflexivity|]. split; [exact A|exact O].
Qed.
Print Assumptions C102_mesh_refuted.
(** Any two others do, as far as they reach each other: C100 for both. *)

(** ** C103: a relay that cannot reach the root, or loses it, connects again *)
(** Never: when [run] has returned, the root is not connected to again, and nothing it announces is heard. *)
Theorem C103_never : forall c ops more s tr, drun c disco_new ops = (s, tr) -> In EReturn (deffects tr) ->
  (forall y, In y (deffects (snd (drun c s more))) -> match y with EDialRoot _ | EAnnounce _ => False | _ => True end) /\
  forall h b, ~ told c (snd (drun c s more)) h b.
Proof. exact never_again. Qed.
Print Assumptions C103_never.
Theorem C103_again_refuted :
  (exists c s tr, cf_connect c <> cf_advertise c /\ drun c disco_new [DStart; DRoot false] = (s, tr) /\ In EReturn (deffects tr)) /\
  (exists c s tr, cf_connect c <> cf_advertise c /\ drun c disco_new [DStart; DRoot true; DOver; DNext] = (s, tr) /\ In EReturn (deffects tr)).
Proof. split; exists leaf_cfg; do 2 eexists; (split; [discriminate|split; [apply surjective_pairing|vm_compute; auto]]). Qed.
Print Assumptions C103_again_refuted.
