From Coq Require Import Arith List Bool Lia.
From Verif.Model Require Import JsEncode.
From Verif.Spec Require Import JsEncodeSpec.
From Verif.Proofs Require Import JsEncodeP.
Import ListNotations.

(** * C212: groups of a web page's video start with a key frame, and belong to one camera

    Groups are made one at a time, on the track of the present medium; their first frame, and no other, is a key frame, and after a change of
    medium nothing more is written to them. *)
Theorem C212_groups : forall ops, well_grouped (snd (c_run c_init ops)).
Proof. exact grouped. Qed.
Print Assumptions C212_groups.

Definition calm : list cop := [CMedia true; CFirst; CChosen 1; COut true; COut false; COut true; CMedia true; CFirst; CChosen 2; COut true; COut false].
Example C212_calm : written (snd (c_run c_init calm)) = 5 /\ fold_left track_step (snd (c_run c_init calm)) (Some (0, 0, GNone)) = Some (2, 3, GOpen 2).
Proof. split; reflexivity. Qed.

(** * C213: every frame of the encoder is written

    Proved if, while a medium is being read, no configuration is found for an earlier one; that no more are written, always. *)
Theorem C213_partial : forall ops, settled (snd (c_run c_init ops)) -> written (snd (c_run c_init ops)) = given (snd (c_run c_init ops)).
Proof. exact settled_written. Qed.
Print Assumptions C213_partial.
Theorem C213_no_more : forall ops, written (snd (c_run c_init ops)) <= given (snd (c_run c_init ops)).
Proof. intros ops. exact (no_more ops c_init). Qed.
Print Assumptions C213_no_more.

Definition hasty : list cop := [CMedia true; CFirst; CMedia true; CFirst; CChosen 2; COut true; CChosen 1; COut false].
Theorem C213_refuted : exists ops, written (snd (c_run c_init ops)) < given (snd (c_run c_init ops)).
Proof. exists hasty. vm_compute. lia. Qed.
Print Assumptions C213_refuted.

Definition quick : list cop := [CMedia true; CFirst; CMedia true; CChosen 1; CFirst; CChosen 2; COut true; COut false].
Example C213_quick : settled (snd (c_run c_init quick)) /\ given (snd (c_run c_init quick)) = 2.
Proof. split; [apply oks_settled|]; reflexivity. Qed.
Example C213_calm : patient (snd (c_run c_init calm)) /\ settled (snd (c_run c_init calm)).
Proof. split; [apply okp_patient|apply oks_settled]; reflexivity. Qed.

(** * C214: the video is called active while a camera is being read

    Proved if no medium is changed while a configuration is being chosen; that it is active then, under the condition of C213.  Otherwise it is false in
    both ways. *)
Theorem C214_partial : forall ops, patient (snd (c_run c_init ops)) -> active (snd (c_run c_init ops)) = reading (snd (c_run c_init ops)).
Proof. exact active_reading. Qed.
Print Assumptions C214_partial.
Theorem C214_settled_partial : forall ops, settled (snd (c_run c_init ops)) -> reading (snd (c_run c_init ops)) = true -> active (snd (c_run c_init ops)) = true.
Proof. exact settled_active. Qed.
Print Assumptions C214_settled_partial.
Theorem C214_refuted : exists ops, active (snd (c_run c_init ops)) = false /\ reading (snd (c_run c_init ops)) = true.
Proof. exists hasty. split; reflexivity. Qed.
Print Assumptions C214_refuted.
Theorem C214_off_refuted : exists ops, active (snd (c_run c_init ops)) = true /\ reading (snd (c_run c_init ops)) = false.
Proof. exists [CMedia true; CFirst; CMedia false]. split; reflexivity. Qed.
Print Assumptions C214_off_refuted.

(** * C215: the configuration in use is that of the present camera *)
Theorem C215_partial : forall ops i, patient (snd (c_run c_init ops)) -> conf (snd (c_run c_init ops)) = Some i -> i = media (snd (c_run c_init ops)).
Proof. exact conf_media. Qed.
Print Assumptions C215_partial.
Theorem C215_refuted : exists ops i, conf (snd (c_run c_init ops)) = Some i /\ i <> media (snd (c_run c_init ops)).
Proof. exists hasty, 1. split; [reflexivity|vm_compute; lia]. Qed.
Print Assumptions C215_refuted.
Example C215_calm : conf (snd (c_run c_init calm)) = Some 2 /\ active (snd (c_run c_init calm)) = true.
Proof. split; reflexivity. Qed.
