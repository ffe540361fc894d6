(** Properties C64, C65, C66: importing fragmented MP4. *)
From Coq Require Import NArith ZArith List Bool Lia.
From Coq Require Import Init.Byte Strings.Byte.
From Verif.Model Require Import Base Coding Media Import.
From Verif.Spec Require Import ImportSpec.
From Verif.Proofs Require Import ImportP ImportSampleP ImportSafeP.
Import ListNotations.
Open Scope N_scope.

(** ** C64 *)

(** With a decoder that does not change its mind when more bytes arrive: however the input is cut into
    chunks, the importer takes the boxes of the whole input in order, keeps the bytes after the last one,
    and stops at the first box that is refused or malformed. *)
Theorem C64_boxes : forall dec m w cs l e, stable dec -> cut dec (concat cs) l e ->
  feed dec m w cs imp_new = imported m w l e imp_new.
Proof. exact feed_new. Qed.
Print Assumptions C64_boxes.

(** So two ways to cut the same input come to the same. *)
Theorem C64_chunking : forall dec m w cs cs', stable dec -> concat cs = concat cs' ->
  feed dec m w cs imp_new = feed dec m w cs' imp_new.
Proof. exact feed_chunks. Qed.
Print Assumptions C64_chunking.

(** Every input is cut in exactly one way. *)
Theorem C64_cut_unique : forall dec b, stable dec ->
  exists l e, cut dec b l e /\ forall l' e', cut dec b l' e' -> l = l' /\ e = e'.
Proof.
  intros dec b Hst. destruct (cut_total dec Hst (length b) b (le_n _)) as (l & e & H).
  exists l, e. split; [exact H|]. exact (cut_det dec b l e H).
Qed.
Print Assumptions C64_cut_unique.

(** The loop over the boxes ends. *)
Theorem C64_ends : forall dec m w cs, stable dec -> snd (feed dec m w cs imp_new) <> PFuel.
Proof. exact feed_no_fuel. Qed.
Print Assumptions C64_ends.

(** Reading from an input until its end does the same, whatever the sizes of the reads; bytes left over
    are an error. *)
Theorem C64_read : forall dec m w cs fin l e s, stable dec -> Forall (fun c => c <> []) cs ->
  cut dec (concat cs) l e ->
  read_from dec m w cs fin s =
  match boxes m w l s with
  | (s, IOk) =>
    match e, fin with
    | CBad x, _ => (s, PErr (EMp4 x))
    | CRest _, RFail n => (s, PErr (EIo n))
    | CRest [], REof => (s, POk [])
    | CRest (_ :: _), REof => (s, PErr ETrailingData)
    end
  | (s, IErr x) => (s, PErr x)
  | (s, IPanic) => (s, PPanic)
  end.
Proof. exact read_new. Qed.
Print Assumptions C64_read.

(** The box framing of ISO/IEC 14496-12 is such a decoder, whatever decodes the boxes, if boxes that
    extend "to the end of the file" are refused. *)
Theorem C64_iso : forall body, stable (iso_dec false body).
Proof. exact iso_stable. Qed.
Print Assumptions C64_iso.

(** If they are taken to be all the bytes at hand, nothing changes for inputs without such a box. *)
Theorem C64_open_partial : forall body m w cs l e,
  cut (iso_dec false body) (concat cs) l e -> e <> CBad 1 ->
  feed (iso_dec true body) m w cs imp_new = imported m w l e imp_new.
Proof.
  intros body m w cs l e H He. rewrite (feed_open body m w cs imp_new l e H He).
  exact (feed_new _ m w cs l e (iso_stable body) H).
Qed.
Print Assumptions C64_open_partial.

(** A box body decoder for the examples: the type, by its first letter, and nothing else. *)
Definition toy_body (b : bytes) : atom + N :=
  match nth_error b 4 with
  | Some x => if n_of x =? 109 then inl (AMdat (skipn 8 b)) else if n_of x =? 102 then inl AType else inr 7
  | None => inr 8
  end.
Definition ftyp8 : bytes := [x00;x00;x00;x08;x66;x74;x79;x70].
Definition mdat9 : bytes := [x00;x00;x00;x09;x6d;x64;x61;x74;xaa].
Definition mdat0 : bytes := [x00;x00;x00;x00;x6d;x64;x61;x74;xaa;xbb].

(** With a box of size 0 the answer depends on the chunks. *)
Theorem C64_open_refuted : exists body m w cs cs', concat cs = concat cs' /\
  snd (feed (iso_dec true body) m w cs (iwith_moov (iwith_moof imp_new (Some []) 8) (Some (Moov [] None)))) <>
  snd (feed (iso_dec true body) m w cs' (iwith_moov (iwith_moof imp_new (Some []) 8) (Some (Moov [] None)))).
Proof.
  exists toy_body, Debug, 64, [mdat0], [firstn 9 mdat0; [xbb]]. split; [reflexivity|].
  vm_compute. discriminate.
Qed.
Print Assumptions C64_open_refuted.

Example C64_case : feed (iso_dec false toy_body) Debug 64 [[x00;x00]; [x00;x08;x66;x74;x79;x70;x00]; [x00]] imp_new =
  (iwith_buf imp_new [x00;x00], POk [x00;x00]).
Proof. reflexivity. Qed.
Example C64_error_case : forall cs, concat cs = ftyp8 ++ mdat9 ->
  snd (feed (iso_dec false toy_body) Debug 64 cs imp_new) = PErr (EMissingBox BMoov).
Proof.
  intros cs E. rewrite (C64_chunking _ Debug 64 cs [ftyp8 ++ mdat9] (iso_stable _)); [reflexivity|].
  rewrite E. reflexivity.
Qed.

(** ** C65 *)

(** Every sample imported from a fragment has the bytes and the time the headers assign to it by the
    importer's rule for [base_data_offset]; the samples are imported in order, without gaps, until one
    lies outside the media data (that is an error) or the rest cannot be read (also an error).
    The hypothesis says that arithmetic did not overflow, see C66. *)
Theorem C65_exact_partial : forall m w data hsize s s' o v f,
  im_moov s = Some v -> im_moof s = Some f ->
  let lead := leading (good v (im_tracks s) (im_moof_size s)) f in
  let P := places (run_from (im_moof_size s) hsize) v (im_tracks s) (im_moof_size s) f in
  Forall (fields w v) lead ->
  snd (extract Debug w data hsize s) <> IPanic ->
  extract m w data hsize s = (s', o) ->
  exists new, im_log s' = im_log s ++ new /\
    Forall2 (written_for data) (firstn (length new) P) new /\
    ends v (im_tracks s) (im_moof_size s) P data f (length new) o.
Proof. exact extract_exact. Qed.
Print Assumptions C65_exact_partial.

(** For fragments that use no [base_data_offset] and always give the data offset, that is what the
    standard assigns, wherever in the file the fragment is. *)
Theorem C65_iso_partial : forall m w data hsize pos s s' o v f,
  im_moov s = Some v -> im_moof s = Some f ->
  let lead := leading (good v (im_tracks s) (im_moof_size s)) f in
  let P := places (iso_from pos (im_moof_size s) hsize) v (im_tracks s) (im_moof_size s) f in
  Forall (fields w v) lead -> Forall plain lead ->
  snd (extract Debug w data hsize s) <> IPanic ->
  extract m w data hsize s = (s', o) ->
  exists new, im_log s' = im_log s ++ new /\
    Forall2 (written_for data) (firstn (length new) P) new /\
    ends v (im_tracks s) (im_moof_size s) P data f (length new) o.
Proof. exact extract_iso. Qed.
Print Assumptions C65_iso_partial.

(** A file header with a video track 1 and an audio track 2, in milliseconds; an importer that has read
    it, and then a fragment header of 100 bytes. *)
Definition two_tracks : moov := Moov [Trak 1 Vide 1000 None; Trak 2 Soun 1000 None] (Some [Trex 2 20 2 0]).
Definition reading (v : moov) (f : moof) : imp :=
  iwith_moof (iwith_moov (fst (init v imp_new)) (Some v)) (Some f) 100.
Definition six : bytes := [x01;x02;x03;x04;x05;x06].
Definition frag : moof :=
  [Traf 1 None None None None (Some 5000) (Some (Trun (Some 108%Z) [Entry (Some 40) (Some 3) (Some 33554432) (Some 80%Z)]));
   Traf 2 None None None None (Some 5000) (Some (Trun (Some 111%Z) [Entry None (Some 1) None None; Entry None None None None]))].
Example C65_case :
  extract Debug 64 six 8 (reading two_tracks frag) =
  (iwith_last (iwith_log (iwith_moof (reading two_tracks frag) None 100)
    [(0%nat, MFrame 5080000000 true [x01;x02;x03]); (1%nat, MFrame 5000000000 true [x04]);
     (1%nat, MFrame 5020000000 false [x05;x06])]) [(2, 5000000000); (1, 5080000000)], IOk) /\
  Forall (fields 64 two_tracks) frag /\ Forall plain frag /\
  leading (good two_tracks (im_tracks (reading two_tracks frag)) 100) frag = frag.
Proof.
  split; [reflexivity|]. split; [|split; [|reflexivity]].
  - constructor; [|constructor; [|constructor]]; (split; [discriminate|]);
      (intros run t0 E1 E2; injection E1 as <-; injection E2 as <-; split; [vm_compute; reflexivity|]).
    + constructor; [cbn; lia|constructor].
    + constructor; [cbn; lia|constructor; [cbn; lia|constructor]].
  - constructor; [|constructor; [|constructor]]; (split; [reflexivity|]); intros run E; injection E as <-; discriminate.
Qed.
(** A sample past the end is refused, after those before it. *)
Example C65_outside_case :
  extract Debug 64 (firstn 5 six) 8 (reading two_tracks frag) =
  (iwith_last (iwith_log (iwith_moof (reading two_tracks frag) None 100)
    [(0%nat, MFrame 5080000000 true [x01;x02;x03]); (1%nat, MFrame 5000000000 true [x04])])
    [(2, 5000000000); (1, 5080000000)], IErr EInvalidOffset).
Proof. reflexivity. Qed.

(** A fragment 1000 bytes into the file that says so: its sample is inside, but is refused; and one whose
    offset is left out: another part of the media data is imported. *)
Definition based : moof :=
  [Traf 1 (Some 1000) None None None (Some 0) (Some (Trun (Some 108%Z) [Entry (Some 40) (Some 3) (Some 33554432) None]))].
Definition based_only : moof :=
  [Traf 1 (Some 1) None None None (Some 0) (Some (Trun None [Entry (Some 40) (Some 3) (Some 33554432) None]))].
Theorem C65_base_refuted : exists m w data hsize pos v f s,
  im_moov s = Some v /\ im_moof s = Some f /\
  (exists p, places (iso_from pos (im_moof_size s) hsize) v (im_tracks s) (im_moof_size s) f = [p] /\ inside data p) /\
  snd (extract m w data hsize s) = IErr EInvalidOffset.
Proof.
  exists Debug, 64, six, 8, 1000, two_tracks, based, (reading two_tracks based).
  split; [reflexivity|]. split; [reflexivity|]. split; [|reflexivity].
  eexists. split; [vm_compute; reflexivity|]. vm_compute. split; congruence.
Qed.
Print Assumptions C65_base_refuted.
Theorem C65_base_only_refuted : exists m w data hsize pos v f s,
  im_moov s = Some v /\ im_moof s = Some f /\
  (exists p, places (iso_from pos (im_moof_size s) hsize) v (im_tracks s) (im_moof_size s) f = [p] /\ ~ inside data p) /\
  snd (extract m w data hsize s) = IOk.
Proof.
  exists Debug, 64, six, 8, 0, two_tracks, based_only, (reading two_tracks based_only).
  split; [reflexivity|]. split; [reflexivity|]. split; [|reflexivity].
  eexists. split; [vm_compute; reflexivity|]. vm_compute. intros [H _]. exact (H eq_refl).
Qed.
Print Assumptions C65_base_only_refuted.

(** In a release build an offset that wraps around is not refused even by the importer's own rule. *)
Definition wrapping : moof :=
  [Traf 1 (Some (2 ^ 64 - 2)) None None None (Some 0) (Some (Trun (Some 112%Z) [Entry (Some 40) (Some 3) (Some 33554432) None]))].
Theorem C65_release_refuted : exists w data hsize v f s,
  im_moov s = Some v /\ im_moof s = Some f /\
  (exists p, places (run_from (im_moof_size s) hsize) v (im_tracks s) (im_moof_size s) f = [p] /\ ~ inside data p) /\
  snd (extract Release w data hsize s) = IOk.
Proof.
  exists 64, six, 8, two_tracks, wrapping, (reading two_tracks wrapping).
  split; [reflexivity|]. split; [reflexivity|]. split; [|vm_compute; reflexivity].
  eexists. split; [vm_compute; reflexivity|]. vm_compute. intros [_ H]. exact (H eq_refl).
Qed.
Print Assumptions C65_release_refuted.

(** And a presentation time before zero becomes a time long after the end. *)
Definition before_zero : moof :=
  [Traf 1 None None None None (Some 0) (Some (Trun (Some 108%Z) [Entry (Some 40) (Some 3) (Some 33554432) (Some (-1)%Z)]))].
Theorem C65_release_time_refuted : exists w data hsize v f s p,
  im_moov s = Some v /\ im_moof s = Some f /\
  places (run_from (im_moof_size s) hsize) v (im_tracks s) (im_moof_size s) f = [p] /\ pl_us p = (-1000)%Z /\
  exists x, im_log (fst (extract Release w data hsize s)) = [(0%nat, x)] /\ mf_ts x > 10 ^ 18.
Proof.
  exists 64, six, 8, two_tracks, before_zero, (reading two_tracks before_zero).
  eexists. split; [reflexivity|]. split; [reflexivity|]. split; [vm_compute; reflexivity|]. split; [reflexivity|].
  eexists. split; [vm_compute; reflexivity|]. vm_compute. reflexivity.
Qed.
Print Assumptions C65_release_time_refuted.

(** ** C66 *)

(** Where the headers give times and ranges that fit, and audio does not go back in time, importing a
    fragment returns. *)
Theorem C66_no_panic_partial : forall m w data hsize s, safe w hsize s -> snd (extract m w data hsize s) <> IPanic.
Proof. exact extract_safe. Qed.
Print Assumptions C66_no_panic_partial.

(** Boxes other than media data never make the importer panic. *)
Theorem C66_other_boxes : forall m w a n s, (forall data, a <> AMdat data) -> snd (process m w a n s) <> IPanic.
Proof. exact process_others. Qed.
Print Assumptions C66_other_boxes.

(** If a debug build does not panic, a release build does the same. *)
Theorem C66_same_in_release : forall m w data hsize s,
  snd (extract Debug w data hsize s) <> IPanic ->
  extract m w data hsize s = extract Debug w data hsize s.
Proof. exact extract_agree. Qed.
Print Assumptions C66_same_in_release.

Example C66_case : safe 64 8 (reading two_tracks frag).
Proof.
  intros v f Ev Ef. injection Ev as <-. injection Ef as <-. cbv zeta.
  destruct C65_case as (_ & Hf & _ & Hl).
  change (im_moof_size (reading two_tracks frag)) with 100. rewrite Hl.
  split; [exact Hf|]. split.
  - constructor; [|constructor; [|constructor]]; intros t k t0 run E; vm_compute in E; injection E as <- <- <- <-; cbv zeta;
      (split; [intros d E; vm_compute in E; injection E as <-; vm_compute; discriminate|]);
      (split; [vm_compute; reflexivity|]); intros i e Hi.
    + destruct i as [|i]; [|destruct i; discriminate]. injection Hi as <-.
      vm_compute. repeat split; discriminate.
    + destruct i as [|[|i]]; [| |destruct i; discriminate]; injection Hi as <-;
        vm_compute; repeat split; discriminate.
  - unfold audio_times. rewrite Hl.
    replace (flat_map _ frag) with [(2, 5000000%Z); (2, 5020000%Z)] by reflexivity. split.
    + constructor; [constructor; [cbn; lia|constructor]|]. constructor; [constructor|constructor].
    + constructor; [discriminate|constructor; [discriminate|constructor]].
Qed.

(** Witnesses.  Each is a fragment that decodes. *)
Definition one (h : handler) (scale : N) (base : option N) (t0 : N) (off : Z) (es : list entry) : imp :=
  reading (Moov [Trak 1 h scale None] None) [Traf 1 base None None None (Some t0) (Some (Trun (Some off) es))].
Definition key3 (cts : option Z) : entry := Entry (Some 40) (Some 3) (Some 33554432) cts.

(** A timescale of 0, in every build. *)
Theorem C66_timescale_refuted : forall m, exists w data hsize s, snd (extract m w data hsize s) = IPanic.
Proof. intro m. exists 64, six, 8, (one Vide 0 None 0 108 [key3 None]). destruct m; reflexivity. Qed.
Print Assumptions C66_timescale_refuted.
(** A data offset that points into the header of the media data, in every build. *)
Theorem C66_offset_refuted : forall m, exists w data hsize s, snd (extract m w data hsize s) = IPanic.
Proof.
  intro m. exists 64, six, 8, (one Vide 1000 None 0 107 [key3 None]). destruct m; vm_compute; reflexivity.
Qed.
Print Assumptions C66_offset_refuted.
(** Audio whose time goes back by one millisecond, in every build. *)
Theorem C66_audio_refuted : forall m, exists w data hsize s, snd (extract m w data hsize s) = IPanic.
Proof.
  intro m. exists 64, six, 8, (one Soun 1000 None 50 108 [Entry (Some 0) (Some 3) None None; Entry (Some 0) (Some 3) None (Some (-1)%Z)]).
  destruct m; vm_compute; reflexivity.
Qed.
Print Assumptions C66_audio_refuted.
(** A presentation time before zero, in a debug build. *)
Theorem C66_negative_refuted : exists w data hsize s, snd (extract Debug w data hsize s) = IPanic.
Proof. exists 64, six, 8, (one Vide 1000 None 0 108 [key3 (Some (-1)%Z)]). reflexivity. Qed.
Print Assumptions C66_negative_refuted.
(** A time stamp in a large unit, in every build: 2^62 microseconds do not fit a varint. *)
Theorem C66_late_refuted : forall m, exists w data hsize s, snd (extract m w data hsize s) = IPanic.
Proof.
  intro m. exists 64, six, 8, (one Vide 1 None 5000000000000 108 [key3 None]). destruct m; vm_compute; reflexivity.
Qed.
Print Assumptions C66_late_refuted.
(** A [base_data_offset] near the end of the address space, in a debug build. *)
Theorem C66_base_refuted : exists w data hsize s, snd (extract Debug w data hsize s) = IPanic.
Proof. exists 64, six, 8, (one Vide 1000 (Some (2 ^ 64 - 1)) 0 109 [key3 None]). reflexivity. Qed.
Print Assumptions C66_base_refuted.
