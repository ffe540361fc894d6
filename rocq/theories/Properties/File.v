(** Properties C144, C145: importing whole files. *)
From Coq Require Import NArith ZArith List Bool Lia.
From Coq Require Import Init.Byte Strings.Byte.
From Verif.Model Require Import Base Coding Media Import.
From Verif.Spec Require Import ImportSpec FileSpec.
From Verif.Proofs Require Import ImportP FileP FileBoxP.
Import ListNotations.
Open Scope N_scope.

(** * C144 *)
(** Whatever file is imported: a video frame is a keyframe exactly if its sample is a sync sample that
    depends on no other; an audio frame exactly if the last keyframe of its track is not within 10 seconds
    before it, or there was a video keyframe since, under a header with that audio track.  Missing: files
    for which a debug build panics, see C66. *)
Theorem C144_keyframes_partial : forall m w l s o, snd (boxes Debug w l imp_new) <> IPanic -> in_range w l -> boxes m w l imp_new = (s, o) ->
  (length (im_log s) <= length (infos l))%nat /\ keyed (combine (infos l) (map snd (im_log s))).
Proof. exact file_keys. Qed.
Print Assumptions C144_keyframes_partial.

(** Audio can be joined wherever video can. *)
Definition C144_joined : Prop := forall m w l s o, snd (boxes Debug w l imp_new) <> IPanic -> in_range w l ->
  Forall supported (traks_of l) -> boxes m w l imp_new = (s, o) -> joined (combine (infos l) (map snd (im_log s))).
(** True of files with one header. *)
Theorem C144_joined_partial : forall m w l s o, snd (boxes Debug w l imp_new) <> IPanic -> in_range w l ->
  (length (headers l) <= 1)%nat -> Forall supported (traks_of l) -> boxes m w l imp_new = (s, o) ->
  joined (combine (infos l) (map snd (im_log s))).
Proof. exact file_joined. Qed.
Print Assumptions C144_joined_partial.

(** * C145 *)
(** The frames written are the samples of the file, fragment by fragment and in order, each to the track
    of its id and as the fragment header before its media data says, up to the first bad box; importing
    succeeds exactly if the file is in order, and then every sample was imported and every track made. *)
Theorem C145_file_partial : forall m w l s o, snd (boxes Debug w l imp_new) <> IPanic -> in_range w l -> boxes m w l imp_new = (s, o) ->
  Forall2 imports (firstn (length (im_log s)) (samples_of l)) (im_log s) /\
  (o = IOk -> length (im_log s) = length (samples_of l) /\ im_made s = map tk_hdlr (traks_of l)) /\
  (o = IOk <-> sound l None [] None).
Proof. exact file_exact. Qed.
Print Assumptions C145_file_partial.

(** Everything before a bad box was imported. *)
Theorem C145_before_partial : forall m w l1 l2 s o, snd (boxes Debug w l1 imp_new) <> IPanic -> in_range w l1 -> sound l1 None [] None ->
  boxes m w (l1 ++ l2) imp_new = (s, o) ->
  exists before after, im_log s = before ++ after /\ Forall2 imports (samples_of l1) before.
Proof. exact file_before. Qed.
Print Assumptions C145_before_partial.

(** From the bytes of the file, however they arrive. *)
Theorem C145_bytes_partial : forall dec m w cs l r s o, stable dec -> cut dec (concat cs) l (CRest r) ->
  snd (boxes Debug w l imp_new) <> IPanic -> in_range w l -> feed dec m w cs imp_new = (s, o) ->
  Forall2 imports (firstn (length (im_log s)) (samples_of l)) (im_log s) /\
  (o = POk r <-> sound l None [] None) /\ (sound l None [] None -> length (im_log s) = length (samples_of l)).
Proof.
  intros dec m w cs l r s o St C Np R E. rewrite (feed_new dec m w cs l _ St C) in E. unfold imported in E.
  destruct (boxes m w l imp_new) as [s1 o1] eqn:B. destruct (file_exact m w l s1 o1 Np R B) as (F & Ok & Iff).
  destruct o1 as [|e|]; injection E as <- <-.
  - cbn [iwith_buf im_log]. split; [exact F|]. split; [tauto|]. intros _. apply Ok. reflexivity.
  - split; [exact F|]. split; [rewrite <- Iff; split; discriminate|]. intros S. apply Iff in S. discriminate.
  - split; [exact F|]. split; [rewrite <- Iff; split; discriminate|]. intros S. apply Iff in S. discriminate.
Qed.
Print Assumptions C145_bytes_partial.

(** A file with video (track 1) and audio (track 2), in milliseconds, and three fragments. *)
Definition hdr : moov := Moov [Trak 1 Vide 1000 None; Trak 2 Soun 1000 None] None.
Definition run (id t0 : N) (off : Z) (es : list entry) : traf := Traf id None None None None (Some t0) (Some (Trun (Some off) es)).
Definition ent (d flags : N) : entry := Entry (Some d) (Some 1) (Some flags) None.
Definition sync_flags : N := 2 * 2 ^ 24.
Definition delta_flags : N := 2 ^ 24 + 2 ^ 16.
Definition file : list (atom * nat) :=
  [(AType, 8%nat); (AMoov hdr, 50%nat);
   (AMoof [run 1 0 108 [ent 40 sync_flags; ent 40 delta_flags]; run 2 0 110 [ent 20 0; ent 20 0]], 100%nat); (AMdat [x01; x02; x03; x04], 12%nat);
   (AMoof [run 1 80 108 [ent 40 sync_flags]; run 2 40 109 [ent 9990 0]], 100%nat); (AOther, 20%nat); (AMdat [x05; x06], 10%nat);
   (AMoof [run 2 10030 108 [ent 20 0; ent 20 0]], 100%nat); (AMdat [x07; x08], 10%nat)].
Definition shown (m : mode) (l : list (atom * nat)) : list (nat * N * bool * bytes) :=
  map (fun x => (fst x, mf_ts (snd x) / 1000000, mf_key (snd x), mf_data (snd x))) (im_log (fst (boxes m 64 l imp_new))).
Example C144_example : snd (boxes Debug 64 file imp_new) = IOk /\ length (headers file) = 1%nat /\
  shown Debug file =
  [(0%nat, 0, true, [x01]); (0%nat, 40, false, [x02]); (1%nat, 0, true, [x03]); (1%nat, 20, false, [x04]);
   (0%nat, 80, true, [x05]); (1%nat, 40, true, [x06]); (1%nat, 10030, false, [x07]); (1%nat, 10050, true, [x08])].
Proof. split; [vm_compute; reflexivity|]. split; [reflexivity|]. vm_compute. reflexivity. Qed.
Example C145_example : in_range 64 file /\ sound file None [] None /\ length (samples_of file) = 8%nat.
Proof.
  assert (R : in_range 64 file).
  { unfold in_range. let v := eval vm_compute in (fragments file None [] None) in change (fragments file None [] None) with v.
    assert (One : forall g fs, leading (good (fg_moov g) (fg_tracks g) (fg_msize g)) (fg_moof g) = fs -> Forall (fields 64 (fg_moov g)) fs ->
      Forall (fields 64 (fg_moov g)) (leading (good (fg_moov g) (fg_tracks g) (fg_msize g)) (fg_moof g))) by (intros g fs <-; auto).
    (apply Forall_cons; [eapply One; [vm_compute; reflexivity|]|apply Forall_cons; [eapply One; [vm_compute; reflexivity|]|apply Forall_cons; [eapply One; [vm_compute; reflexivity|]|apply Forall_nil]]]);
    repeat (first [apply Forall_cons | apply Forall_nil]); (split; [discriminate|]);
    (intros r t0 E1 E2; injection E1 as <-; injection E2 as <-; split; [vm_compute; reflexivity|]);
    repeat (apply Forall_cons || apply Forall_nil); vm_compute; split; congruence. }
  split; [exact R|].
  destruct C144_example as (Ok & _). destruct (boxes Debug 64 file imp_new) as [s o] eqn:E. cbn [snd] in Ok.
  assert (Np : snd (boxes Debug 64 file imp_new) <> IPanic) by (rewrite E, Ok; discriminate).
  split; [exact (proj1 (proj2 (proj2 (C145_file_partial _ _ _ _ _ Np R E))) Ok)|vm_compute; reflexivity].
Qed.
(** Two fragment headers in a row, media data without one, and a track of another kind are refused. *)
Example C145_refused :
  map (fun l => snd (boxes Release 64 l imp_new))
    [[(AMoov hdr, 50%nat); (AMoof [], 100%nat); (AMoof [], 100%nat)];
     [(AMoov hdr, 50%nat); (AMoof [], 100%nat); (AMdat [], 8%nat); (AMdat [], 8%nat)];
     [(AMoov (Moov [Trak 1 Sbtl 1000 None] None), 50%nat)]; [(AMoov (Moov [Trak 1 Vide 1000 (Some 3)] None), 50%nat)]] =
  [IErr (EDuplicateBox BMoof); IErr (EMissingBox BMoof); IErr (EUnsupportedTrack true); IErr (ECodec 3)].
Proof. reflexivity. Qed.
(** The audio track is missing from the second of three headers: the video keyframe in between is forgotten. *)
Definition cut_in : list (atom * nat) :=
  [(AMoov hdr, 50%nat);
   (AMoof [run 1 0 108 [ent 40 sync_flags]; run 2 0 109 [ent 20 0]], 100%nat); (AMdat [x01; x02], 10%nat);
   (AMoov (Moov [Trak 1 Vide 1000 None] None), 40%nat);
   (AMoof [run 1 40 108 [ent 40 sync_flags]], 100%nat); (AMdat [x03], 9%nat);
   (AMoov hdr, 50%nat);
   (AMoof [run 2 60 108 [ent 20 0]], 100%nat); (AMdat [x04], 9%nat)].
Theorem C144_joined_refuted : exists m w l s o, snd (boxes Debug w l imp_new) <> IPanic /\ in_range w l /\ Forall supported (traks_of l) /\
  boxes m w l imp_new = (s, o) /\ ~ joined (combine (infos l) (map snd (im_log s))).
Proof.
  exists Debug, 64, cut_in, (fst (boxes Debug 64 cut_in imp_new)), (snd (boxes Debug 64 cut_in imp_new)).
  split; [vm_compute; discriminate|]. split.
  { unfold in_range. let v := eval vm_compute in (fragments cut_in None [] None) in change (fragments cut_in None [] None) with v.
    assert (One : forall g fs, leading (good (fg_moov g) (fg_tracks g) (fg_msize g)) (fg_moof g) = fs -> Forall (fields 64 (fg_moov g)) fs ->
      Forall (fields 64 (fg_moov g)) (leading (good (fg_moov g) (fg_tracks g) (fg_msize g)) (fg_moof g))) by (intros g fs <-; auto).
    (apply Forall_cons; [eapply One; [vm_compute; reflexivity|]|apply Forall_cons; [eapply One; [vm_compute; reflexivity|]|apply Forall_cons; [eapply One; [vm_compute; reflexivity|]|apply Forall_nil]]]);
    repeat (first [apply Forall_cons | apply Forall_nil]); (split; [discriminate|]);
    (intros r t0 E1 E2; injection E1 as <-; injection E2 as <-; split; [vm_compute; reflexivity|]);
    repeat (apply Forall_cons || apply Forall_nil); vm_compute; split; congruence. }
  split; [repeat (apply Forall_cons; [split; [first [left; reflexivity|right; reflexivity]|reflexivity]|]); apply Forall_nil|]. split; [apply surjective_pairing|].
  let v := eval vm_compute in (combine (infos cut_in) (map snd (im_log (fst (boxes Debug 64 cut_in imp_new))))) in
    change (combine (infos cut_in) (map snd (im_log (fst (boxes Debug 64 cut_in imp_new))))) with v;
    intros J; match v with [?a; ?b; (?j, ?y); (?i, ?x)] => specialize (J [a; b] j y [] i x [] eq_refl eq_refl eq_refl eq_refl (Forall_nil _)) end.
  discriminate J.
Qed.
Print Assumptions C144_joined_refuted.
