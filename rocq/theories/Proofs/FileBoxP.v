(** Importing a whole file: box by box. *)
From Coq Require Import NArith ZArith Arith List Lia Bool.
From Coq Require Import Init.Byte Strings.Byte.
From Verif.Model Require Import Base Coding Media Import.
From Verif.Spec Require Import ImportSpec FileSpec.
From Verif.Proofs Require Import ImportSampleP FileP.
Import ListNotations.
Open Scope N_scope.

(** ** Where debug does not panic, release does the same *)
Lemma process_agree m w a n s : snd (process Debug w a n s) <> IPanic -> process m w a n s = process Debug w a n s.
Proof.
  destruct a as [|v|f|d|]; try reflexivity. cbn [process]. destruct (usub Debug w n (len d)) as [h|] eqn:E; [|intro H; cbn in H; congruence].
  rewrite (usub_agree _ _ _ _ m E). apply extract_agree.
Qed.
Lemma boxes_agree m w l : forall s, snd (boxes Debug w l s) <> IPanic -> boxes m w l s = boxes Debug w l s.
Proof.
  induction l as [|[a n] l IH]; intros s H; [reflexivity|]. cbn [boxes] in *.
  assert (P : snd (process Debug w a (N.of_nat n) s) <> IPanic).
  { intro E. destruct (process Debug w a (N.of_nat n) s) as [s1 o]. cbn in E. subst o. apply H. reflexivity. }
  rewrite (process_agree m) by exact P. destruct (process Debug w a (N.of_nat n) s) as [s1 [| |]]; [|reflexivity..]. apply IH. exact H.
Qed.

(** ** The tracks *)
Lemma table_snoc ks k : table (ks ++ [k]) = (tk_id k, length ks) :: table ks.
Proof.
  unfold table. rewrite app_length, map_app, seq_app. cbn [length Nat.add seq map]. rewrite combine_both by (rewrite map_length, seq_length; reflexivity).
  rewrite rev_app_distr. reflexivity.
Qed.
Definition same {A} (a b : hmap A) : Prop := forall id, hget id a = hget id b.
Lemma same_snoc h ks k : same h (table ks) -> same (hput (tk_id k) (length ks) h) (table (ks ++ [k])).
Proof.
  intros S id. rewrite hget_put, table_snoc. unfold hget at 2. cbn [find fst]. rewrite N.eqb_sym. destruct (tk_id k =? id); [reflexivity|]. exact (S id).
Qed.
Section Same.
  Context (h h' : hmap nat) (S : same h h') (v : moov) (ms : N).
  Lemma same_resolved tf : resolved v h ms tf = resolved v h' ms tf.
  Proof. unfold resolved. rewrite S. reflexivity. Qed.
  Lemma same_good tf : good v h ms tf = good v h' ms tf.
  Proof. unfold good. rewrite same_resolved. reflexivity. Qed.
  Lemma same_leading f : leading (good v h ms) f = leading (good v h' ms) f.
  Proof. induction f as [|a f IH]; [reflexivity|]. cbn. rewrite same_good, IH. reflexivity. Qed.
  Lemma same_all f : forallb (good v h ms) f = forallb (good v h' ms) f.
  Proof. induction f as [|a f IH]; [reflexivity|]. cbn. rewrite same_good, IH. reflexivity. Qed.
  Lemma same_places rule f : places rule v h ms f = places rule v h' ms f.
  Proof.
    unfold places. rewrite same_leading. apply flat_map_ext. intro tf. unfold places_of. rewrite same_resolved. reflexivity.
  Qed.
  Lemma same_infos f : flat_map (infos_of v h ms) f = flat_map (infos_of v h' ms) f.
  Proof. apply flat_map_ext. intro tf. unfold infos_of. rewrite same_resolved. reflexivity. Qed.
End Same.

(** The state after some boxes. *)
Record stands (s : imp) (hdr : option moov) (ks : list trak) (frag : option (moof * N)) : Prop := {
  st_hdr : im_moov s = hdr;
  st_tracks : same (im_tracks s) (table ks);
  st_made : im_made s = map tk_hdlr ks;
  st_frag : im_moof s = option_map fst frag;
  st_size : forall f n, frag = Some (f, n) -> im_moof_size s = n }.

Lemma init_ok ks' : forall s ks, same (im_tracks s) (table ks) -> im_made s = map tk_hdlr ks ->
  match init_traks ks' s with
  | (s', IOk) => Forall supported ks' /\ same (im_tracks s') (table (ks ++ ks')) /\ im_made s' = map tk_hdlr (ks ++ ks') /\
      im_moof s' = im_moof s /\ im_moof_size s' = im_moof_size s /\ im_log s' = im_log s /\ im_last s' = im_last s
  | (s', IErr _) => ~ Forall supported ks' /\ im_log s' = im_log s /\ im_last s' = im_last s
  | (_, IPanic) => False
  end.
Proof.
  induction ks' as [|k ks' IH]; intros s ks T M; cbn [init_traks].
  - rewrite app_nil_r. auto 8.
  - assert (No : ~ supported k -> ~ Forall supported (k :: ks')) by (intros N F; inversion F; contradiction).
    assert (Go : forall h, tk_hdlr k = h -> h = Vide \/ h = Soun ->
      match (match tk_codec k with Some n => (s, IErr (ECodec n)) | None => init_traks ks' (iwith_track s (tk_id k) h) end) with
      | (s', IOk) => Forall supported (k :: ks') /\ same (im_tracks s') (table (ks ++ k :: ks')) /\ im_made s' = map tk_hdlr (ks ++ k :: ks') /\
          im_moof s' = im_moof s /\ im_moof_size s' = im_moof_size s /\ im_log s' = im_log s /\ im_last s' = im_last s
      | (s', IErr _) => ~ Forall supported (k :: ks') /\ im_log s' = im_log s /\ im_last s' = im_last s
      | (_, IPanic) => False
      end).
    { intros h Eh Hh. destruct (tk_codec k) as [c|] eqn:C.
      - split; [|auto]. apply No. intros [_ Q]. congruence.
      - specialize (IH (iwith_track s (tk_id k) h) (ks ++ [k])).
        assert (T' : same (im_tracks (iwith_track s (tk_id k) h)) (table (ks ++ [k]))).
        { cbn [iwith_track im_tracks]. rewrite M, map_length. apply same_snoc. exact T. }
        assert (M' : im_made (iwith_track s (tk_id k) h) = map tk_hdlr (ks ++ [k])) by (cbn [iwith_track im_made]; rewrite M, map_app, <- Eh; reflexivity).
        specialize (IH T' M'). rewrite <- app_assoc in IH. cbn [app] in IH.
        destruct (init_traks ks' (iwith_track s (tk_id k) h)) as [s' [|e|]]; [| |exact IH].
        + destruct IH as (A & B & C' & D & E & F & G). split; [|cbn in *; auto 8]. constructor; [|exact A]. split; [subst h; tauto|exact C].
        + destruct IH as (A & B & C'). split; [|cbn in *; auto]. intros F. inversion F; contradiction. }
    destruct (tk_hdlr k) eqn:H; [apply (Go Vide); auto|apply (Go Soun); auto|split; [|auto]; apply No; intros [[Q|Q] _]; congruence..].
Qed.

Definition frag_of (s : imp) v ks f ms n d := Fragment v (table ks) ms (n - len d) d f.
Definition all_samples (gs : list fragment) : list (bytes * place) := flat_map (fun g => map (pair (fg_data g)) (places_in g)) gs.
Definition ranged (w : N) (gs : list fragment) : Prop :=
  Forall (fun g => Forall (fields w (fg_moov g)) (leading (good (fg_moov g) (fg_tracks g) (fg_msize g)) (fg_moof g))) gs.
Definition all_infos (gs : list fragment) : list info :=
  flat_map (fun g => flat_map (infos_of (fg_moov g) (fg_tracks g) (fg_msize g)) (leading (good (fg_moov g) (fg_tracks g) (fg_msize g)) (fg_moof g))) gs.

Lemma written_inside data P new : Forall2 (written_for data) P new -> Forall (inside data) P.
Proof. induction 1 as [|p x P new H]; constructor; [apply H|assumption]. Qed.

(** One fragment. *)
Lemma fragment_debug w data hsize s s' o hdr ks f ms v :
  stands s hdr ks (Some (f, ms)) -> hdr = Some v ->
  extract Debug w data hsize s = (s', o) -> o <> IPanic ->
  let g := Fragment v (table ks) ms hsize data f in
  ranged w [g] ->
  exists new, im_log s' = im_log s ++ new /\ (length new <= length (places_in g))%nat /\
    Forall2 (written_for data) (firstn (length new) (places_in g)) new /\
    (o = IOk -> length new = length (places_in g) /\ stands s' hdr ks None) /\ (o = IOk <-> readable g) /\
    forall hist, remembers hist (im_last s) -> keyed hist ->
      (length new <= length (all_infos [g]))%nat /\ (o = IOk -> length new = length (all_infos [g])) /\
      remembers (hist ++ combine (all_infos [g]) (map snd new)) (im_last s') /\ keyed (hist ++ combine (all_infos [g]) (map snd new)).
Proof.
  intros [H T M F Z] -> E Ho g Rg. specialize (Z _ _ eq_refl). cbn [option_map fst] in F. unfold extract in E. rewrite H, F in E.
  set (s0 := iwith_moof s None (im_moof_size s)) in *. inversion Rg as [|? ? Hf _]; subst. cbn [fg_moov fg_tracks fg_msize fg_moof] in Hf.
  rewrite <- (same_leading _ _ T) in Hf.
  destruct (trafs_debug w v data hsize f s0 s' o E Ho Hf) as (new & El & Kp & Hn & Hw & He).
  change (im_tracks s0) with (im_tracks s) in *. change (im_moof_size s0) with (im_moof_size s) in *. change (im_log s0) with (im_log s) in *.
  assert (EP : places (run_from (im_moof_size s) hsize) v (im_tracks s) (im_moof_size s) f = places_in g).
  { unfold places_in, g. cbn [fg_moov fg_tracks fg_msize fg_moof fg_hsize]. apply same_places. exact T. }
  rewrite EP in *. exists new. split; [exact El|]. split; [exact Hn|]. split; [exact Hw|].
  split. { intros ->. destruct He as [He _]. split; [exact He|]. destruct Kp as (K1 & K2 & K3 & K4 & K5).
    constructor; [rewrite K2; exact H|rewrite K1; exact T|rewrite K5; exact M|rewrite K3; reflexivity|discriminate]. }
  split.
  { unfold readable. cbn [fg_moov fg_tracks fg_msize fg_moof fg_data g]. rewrite <- (same_all _ _ T). unfold ends in He. split.
    - intros ->. destruct He as [He Hg]. split; [exact Hg|]. rewrite He, firstn_all in Hw. exact (written_inside _ _ _ Hw).
    - intros [Hg Hi]. destruct o as [|e|]; [reflexivity| |contradiction]. exfalso. destruct He as [(_ & p & Np & Ni)|(_ & Hg')]; [|congruence].
      apply Ni. apply nth_error_In in Np. exact (proj1 (Forall_forall _ _) Hi _ Np). }
  intros hist Rm Kd.
  destruct (trafs_keys w v data hsize f s0 s' o hist E Ho Hf Rm Kd) as (new' & El' & Hk).
  change (im_log s0) with (im_log s) in El'. rewrite El in El'. apply app_inv_head in El'. subst new'.
  change (im_tracks s0) with (im_tracks s) in *. change (im_moof_size s0) with (im_moof_size s) in *. cbv zeta in Hk.
  unfold all_infos. cbn [flat_map fg_moov fg_tracks fg_msize fg_moof g]. rewrite app_nil_r.
  rewrite <- (same_leading _ _ T), <- (same_infos _ _ T). exact Hk.
Qed.

Lemma ranged_cons w g gs : ranged w (g :: gs) -> ranged w [g] /\ ranged w gs.
Proof. intros R. inversion R; subst. split; [constructor; [assumption|constructor]|assumption]. Qed.

Lemma boxes_debug w l : forall s hdr ks frag s' o, stands s hdr ks frag -> boxes Debug w l s = (s', o) -> o <> IPanic ->
  let gs := fragments l hdr ks frag in ranged w gs ->
  exists new, im_log s' = im_log s ++ new /\ (length new <= length (all_samples gs))%nat /\
    Forall2 imports (firstn (length new) (all_samples gs)) new /\
    (o = IOk -> length new = length (all_samples gs) /\ im_made s' = map tk_hdlr (ks ++ traks_of l)) /\
    (o = IOk <-> sound l hdr ks frag).
Proof.
  induction l as [|[a n] l IH]; intros s hdr ks frag s' o St E Ho gs Rg.
  - cbn in E. injection E as <- <-. exists []. rewrite !app_nil_r. cbn. split; [reflexivity|]. split; [lia|]. split; [constructor|]. split; [|tauto].
    intros _. split; [reflexivity|]. exact (st_made _ _ _ _ St).
  - cbn [boxes] in E. destruct (process Debug w a (N.of_nat n) s) as [s1 o1] eqn:P.
    assert (Ho1 : o1 <> IPanic) by (intros ->; injection E as _ <-; congruence).
    destruct a as [|v|f|d|].
    + injection P as <- <-. exact (IH _ _ _ _ _ _ St E Ho Rg).
    + cbn [process] in P. unfold init in P. pose proof (init_ok (mv_trak v) s ks (st_tracks _ _ _ _ St) (st_made _ _ _ _ St)) as I.
      destruct (init_traks (mv_trak v) s) as [s2 [|e|]]; [| |contradiction].
      * injection P as <- <-. destruct I as (I1 & I2 & I3 & I4 & I5 & I6 & I7).
        assert (St2 : stands (iwith_moov s2 (Some v)) (Some v) (ks ++ mv_trak v) frag).
        { destruct St as [A B C D F]. constructor; [reflexivity|exact I2|exact I3|cbn; rewrite I4; exact D|]. intros f m Ef. cbn. rewrite I5. exact (F f m Ef). }
        destruct (IH _ _ _ _ _ _ St2 E Ho Rg) as (new & N1 & N2 & N3 & N4 & N5). exists new.
        cbn [iwith_moov im_log] in N1. rewrite I6 in N1. split; [exact N1|]. split; [exact N2|]. split; [exact N3|].
        cbn [traks_of flat_map fst]. rewrite app_assoc. split; [exact N4|]. cbn [sound]. rewrite N5. tauto.
      * injection P as <- <-. injection E as <- <-. destruct I as (I1 & I2 & _). exists []. rewrite app_nil_r. cbn [length firstn]. split; [exact I2|].
        split; [lia|]. split; [constructor|]. split; [discriminate|]. cbn [sound]. split; [discriminate|]. intros [Q _]. contradiction.
    + cbn [process] in P. rewrite (st_frag _ _ _ _ St) in P. destruct frag as [[f0 n0]|]; cbn [option_map] in P.
      * injection P as <- <-. injection E as <- <-. exists []. rewrite app_nil_r. cbn [length firstn]. split; [reflexivity|].
        split; [lia|]. split; [constructor|]. split; [discriminate|]. cbn [sound]. split; [discriminate|]. intros [Q _]. discriminate.
      * injection P as <- <-.
        assert (St2 : stands (iwith_moof s (Some f) (N.of_nat n)) hdr ks (Some (f, N.of_nat n))).
        { destruct St as [A B C D F]. constructor; [exact A|exact B|exact C|reflexivity|]. intros f' m [= <- <-]. reflexivity. }
        destruct (IH _ _ _ _ _ _ St2 E Ho Rg) as (new & N1 & N2 & N3 & N4 & N5). exists new. split; [exact N1|]. split; [exact N2|]. split; [exact N3|].
        split; [exact N4|]. cbn [sound]. rewrite N5. tauto.
    + cbn [process] in P. destruct (usub Debug w (N.of_nat n) (len d)) as [h|] eqn:U; [|injection P as <- <-; congruence].
      apply usub_debug in U. destruct U as [_ ->].
      assert (Bad : (hdr = None \/ frag = None) -> exists e, (s1, o1) = (s, IErr e)).
      { intros Q. rewrite <- P. unfold extract. rewrite (st_hdr _ _ _ _ St), (st_frag _ _ _ _ St). destruct hdr; [|eauto].
        destruct Q as [Q|Q]; [discriminate|]. rewrite Q. cbn. eauto. }
      assert (Bad2 : (hdr = None \/ frag = None) -> exists new, im_log s' = im_log s ++ new /\ (length new <= length (all_samples gs))%nat /\
        Forall2 imports (firstn (length new) (all_samples gs)) new /\
        (o = IOk -> length new = length (all_samples gs) /\ im_made s' = map tk_hdlr (ks ++ traks_of ((AMdat d, n) :: l))) /\
        (o = IOk <-> False)).
      { intros Q. destruct (Bad Q) as (e & Q'). injection Q' as -> ->. injection E as <- <-. exists []. rewrite app_nil_r. cbn [length firstn].
        split; [reflexivity|]. split; [lia|]. split; [constructor|]. split; [discriminate|]. split; [discriminate|tauto]. }
      destruct hdr as [v|]; [|apply Bad2; auto]. destruct frag as [[f ms]|]; [|apply Bad2; auto]. clear Bad Bad2.
      subst gs. cbn [fragments sound] in *. set (g := Fragment v (table ks) ms (N.of_nat n - len d) d f) in *.
      destruct (ranged_cons _ _ _ Rg) as [Rg1 Rg2].
      destruct (fragment_debug _ _ _ _ _ _ _ _ _ _ _ St eq_refl P Ho1 Rg1) as (new & N1 & N2 & N3 & N4 & N5 & _). fold g in N2, N3, N4, N5.
      set (gs := fragments l (Some v) ks None) in *.
      assert (W : forall k, Forall2 (written_for d) (firstn k (places_in g)) new -> Forall2 imports (firstn k (map (pair d) (places_in g))) new).
      { intros k F2. rewrite firstn_map. revert F2. generalize (firstn k (places_in g)). clear. induction new as [|x new IH]; intros P F2; inversion F2; subst; constructor; auto. }
      unfold all_samples. cbn [flat_map]. fold (all_samples gs). change (fg_data g) with d.
      destruct o1 as [|e|]; [| |congruence].
      * destruct (N4 eq_refl) as [Ln St2]. destruct (IH _ _ _ _ _ _ St2 E Ho Rg2) as (new' & M1 & M2 & M3 & M4 & M5). fold gs in M2, M3, M4.
        exists (new ++ new'). rewrite M1, N1, app_assoc, !app_length, map_length. split; [reflexivity|]. split; [lia|]. split.
        { rewrite firstn_app, map_length. apply Forall2_app.
          - rewrite firstn_all2 by (rewrite map_length; lia). specialize (W (length new) N3). rewrite firstn_all2 in W by (rewrite map_length; lia). exact W.
          - replace (length new + length new' - length (places_in g))%nat with (length new') by lia. exact M3. }
        split. { intros Q. destruct (M4 Q) as [M41 M42]. split; [lia|exact M42]. }
        rewrite M5. tauto.
      * injection E as <- <-. exists new. rewrite !app_length, map_length. split; [exact N1|]. split; [lia|]. split.
        { rewrite firstn_app, map_length. replace (length new - length (places_in g))%nat with 0%nat by lia. cbn [firstn]. rewrite app_nil_r. exact (W _ N3). }
        split; [discriminate|]. split; [discriminate|]. intros [Q _]. apply N5 in Q. discriminate.
    + injection P as <- <-. exact (IH _ _ _ _ _ _ St E Ho Rg).
Qed.

(** Keyframes. *)
Lemma boxes_keys w l : forall s hdr ks frag s' o hist,
  stands s hdr ks frag -> boxes Debug w l s = (s', o) -> o <> IPanic ->
  let gs := fragments l hdr ks frag in ranged w gs -> remembers hist (im_last s) -> keyed hist ->
  exists new, im_log s' = im_log s ++ new /\ (length new <= length (all_infos gs))%nat /\ keyed (hist ++ combine (all_infos gs) (map snd new)).
Proof.
  induction l as [|[a n] l IH]; intros s hdr ks frag s' o hist St E Ho gs Rg Rm Kd.
  - cbn in E. injection E as <- <-. exists []. cbn [map length]. rewrite combine_nil, !app_nil_r. split; [reflexivity|]. split; [lia|exact Kd].
  - cbn [boxes] in E. destruct (process Debug w a (N.of_nat n) s) as [s1 o1] eqn:P.
    assert (Ho1 : o1 <> IPanic) by (intros ->; injection E as _ <-; congruence).
    assert (Z : forall is, im_log s' = im_log s -> exists new, im_log s' = im_log s ++ new /\ (length new <= length (is : list info))%nat /\ keyed (hist ++ combine is (map snd new))).
    { intros is Q. exists []. cbn [map length]. rewrite combine_nil, !app_nil_r. split; [exact Q|]. split; [lia|exact Kd]. }
    destruct a as [|v|f|d|].
    + injection P as <- <-. exact (IH _ _ _ _ _ _ _ St E Ho Rg Rm Kd).
    + cbn [process] in P. unfold init in P. pose proof (init_ok (mv_trak v) s ks (st_tracks _ _ _ _ St) (st_made _ _ _ _ St)) as I.
      destruct (init_traks (mv_trak v) s) as [s2 [|e|]]; [| |contradiction].
      * injection P as <- <-. destruct I as (I1 & I2 & I3 & I4 & I5 & I6 & I7).
        assert (St2 : stands (iwith_moov s2 (Some v)) (Some v) (ks ++ mv_trak v) frag).
        { destruct St as [A B C D F]. constructor; [reflexivity|exact I2|exact I3|cbn; rewrite I4; exact D|]. intros f m Ef. cbn. rewrite I5. exact (F f m Ef). }
        assert (Rm2 : remembers hist (im_last (iwith_moov s2 (Some v)))) by (cbn [iwith_moov im_last]; rewrite I7; exact Rm).
        destruct (IH _ _ _ _ _ _ _ St2 E Ho Rg Rm2 Kd) as (new & N1 & N2 & N3).
        exists new. cbn [iwith_moov im_log] in N1. rewrite I6 in N1. exact (conj N1 (conj N2 N3)).
      * injection P as <- <-. injection E as <- <-. apply Z. apply I.
    + cbn [process] in P. rewrite (st_frag _ _ _ _ St) in P. destruct frag as [[f0 n0]|]; cbn [option_map] in P.
      * injection P as <- <-. injection E as <- <-. apply Z. reflexivity.
      * injection P as <- <-.
        assert (St2 : stands (iwith_moof s (Some f) (N.of_nat n)) hdr ks (Some (f, N.of_nat n))).
        { destruct St as [A B C D F]. constructor; [exact A|exact B|exact C|reflexivity|]. intros f' m [= <- <-]. reflexivity. }
        exact (IH _ _ _ _ _ _ _ St2 E Ho Rg Rm Kd).
    + cbn [process] in P. destruct (usub Debug w (N.of_nat n) (len d)) as [h|] eqn:U; [|injection P as <- <-; congruence].
      apply usub_debug in U. destruct U as [_ ->].
      assert (Bad : (hdr = None \/ frag = None) -> im_log s' = im_log s).
      { intros Q. assert (Q' : exists e, (s1, o1) = (s, IErr e)).
        { rewrite <- P. unfold extract. rewrite (st_hdr _ _ _ _ St), (st_frag _ _ _ _ St). destruct hdr; [|eauto].
          destruct Q as [Q|Q]; [discriminate|]. rewrite Q. cbn. eauto. }
        destruct Q' as (e & Q'). injection Q' as -> ->. injection E as <- <-. reflexivity. }
      destruct hdr as [v|]; [|apply Z, Bad; auto]. destruct frag as [[f ms]|]; [|apply Z, Bad; auto]. clear Bad Z.
      subst gs. cbn [fragments] in *. set (g := Fragment v (table ks) ms (N.of_nat n - len d) d f) in *. destruct (ranged_cons _ _ _ Rg) as [Rg1 Rg2].
      destruct (fragment_debug _ _ _ _ _ _ _ _ _ _ _ St eq_refl P Ho1 Rg1) as (new & N1 & _ & _ & N4 & _ & N6). fold g in N4, N6.
      destruct (N6 hist Rm Kd) as (L1 & L2 & Rm1 & Kd1).
      set (gs := fragments l (Some v) ks None) in *.
      assert (EI : all_infos (g :: gs) = all_infos [g] ++ all_infos gs) by (unfold all_infos; cbn [flat_map]; rewrite app_nil_r; reflexivity).
      rewrite EI. destruct o1 as [|e|]; [| |congruence].
      * destruct (N4 eq_refl) as [_ St2]. destruct (IH _ _ _ _ _ _ _ St2 E Ho Rg2 Rm1 Kd1) as (new' & M1 & M2 & M3). fold gs in M2, M3.
        exists (new ++ new'). rewrite M1, N1, app_assoc, !app_length. specialize (L2 eq_refl). split; [reflexivity|]. split; [lia|].
        rewrite map_app, combine_both, app_assoc by (rewrite map_length; exact L2). exact M3.
      * injection E as <- <-. exists new. rewrite app_length. split; [exact N1|]. split; [lia|]. rewrite combine_prefix by (rewrite map_length; lia). exact Kd1.
    + injection P as <- <-. exact (IH _ _ _ _ _ _ _ St E Ho Rg Rm Kd).
Qed.

(** With one header, of supported tracks. *)
Definition under (v : moov) (i : info) : Prop :=
  exists k, find (fun k => tk_id k =? in_id i) (mv_trak v) = Some k /\ in_video i = is_video k /\ in_audio i = audio_of v.
Lemma infos_under v h ms tf : Forall (under v) (infos_of v h ms tf).
Proof.
  unfold infos_of. destruct (resolved v h ms tf) as [[[[t k] t0] run]|] eqn:R; [|constructor].
  assert (F : find (fun k => tk_id k =? tf_id tf) (mv_trak v) = Some k).
  { unfold resolved in R. destruct (hget _ _); [|discriminate]. destruct (find _ _) as [k'|]; [|discriminate]. destruct (tf_run tf); [|discriminate].
    destruct (tf_time tf); [|discriminate]. destruct (tr_off _) as [d|]; [destruct (_ <? _)%Z; [discriminate|]|]; congruence. }
  apply Forall_forall. intros i I. apply in_map_iff in I. destruct I as (e & <- & _). exists k. auto.
Qed.
Lemma under_all l : forall hdr ks frag v, (match hdr with Some v => [v] | None => [] end) ++ headers l = [v] ->
  Forall (under v) (all_infos (fragments l hdr ks frag)).
Proof.
  induction l as [|[a n] l IH]; intros hdr ks frag v H; [constructor|]. destruct a as [|v'|f|d|]; cbn [fragments]; try (apply IH; exact H).
  - apply (IH (Some v')). destruct hdr as [v0|]; [|exact H]. cbn in H. discriminate.
  - destruct hdr as [v0|]; [|constructor]. destruct frag as [[f ms]|]; [|constructor]. unfold all_infos. cbn [flat_map fg_moov fg_tracks fg_msize fg_moof].
    apply Forall_app. split; [|apply IH; exact H]. cbn in H. injection H as -> _. apply Forall_flat_map. apply Forall_forall. intros tf _. apply infos_under.
Qed.
Lemma keyed_joined v hist : Forall supported (mv_trak v) -> Forall (under v) (map fst hist) -> keyed hist -> joined hist.
Proof.
  intros Sup U K pre j y mid i x post E Vj Ky Vi Nm.
  assert (Uj : under v j /\ under v i).
  { subst hist. rewrite map_app in U. apply Forall_app in U. destruct U as [_ U]. cbn [map fst] in U. inversion U as [|? ? A B]; subst. split; [exact A|].
    rewrite map_app in B. apply Forall_app in B. destruct B as [_ B]. inversion B; assumption. }
  destruct Uj as [(kj & Fj & Ij & Aj) (ki & Fi & Ii & Ai)].
  assert (Ne : in_id j <> in_id i). { intros Q. rewrite Q, Fi in Fj. injection Fj as <-. congruence. }
  assert (Au : In (in_id i) (in_audio j)).
  { rewrite Aj. pose proof (find_some _ _ Fi) as [Ik Ek]. apply N.eqb_eq in Ek. rewrite <- Ek. unfold audio_of. apply in_map, filter_In. split; [exact Ik|].
    pose proof (proj1 (Forall_forall _ _) Sup _ Ik) as [[S|S] _]; [|rewrite S; reflexivity]. unfold is_video in Ii. rewrite S in Ii. congruence. }
  assert (E2 : hist = (pre ++ (j, y) :: mid) ++ (i, x) :: post) by (rewrite E, <- app_assoc; reflexivity).
  apply (K _ _ _ _ E2). unfold starts. rewrite Vi. intros (t & (a & i' & x' & b & Q & Q1 & Q2 & _ & Q3) & _).
  (* where the remembered keyframe is *)
  assert (W : forall l : list (info * mframe), pre ++ (j, y) :: l = a ++ (i', x') :: b -> In (i', x') ((j, y) :: l) \/ In (j, y) b).
  { clear - y. revert a. induction pre as [|p pre IH]; intros a l Q.
    - left. cbn in Q. rewrite Q. apply in_or_app. right. left. reflexivity.
    - destruct a as [|q a]; cbn in Q; injection Q as -> Q; [right; subst b; apply in_or_app; right; left; reflexivity|]. exact (IH a l Q). }
  destruct (W mid Q) as [[I|I]|I].
  - injection I as <- <-. congruence.
  - exact (proj1 (Forall_forall _ _) Nm _ I Q1).
  - destruct (proj1 (Forall_forall _ _) Q3 _ I Ky) as [_ Q4]. exact (Q4 Vj Au).
Qed.

Lemma stands_new : stands imp_new None [] None.
Proof. constructor; [reflexivity|intro id; reflexivity|reflexivity|reflexivity|intros f n Q; discriminate]. Qed.

Theorem file_exact m w l s o : snd (boxes Debug w l imp_new) <> IPanic -> in_range w l -> boxes m w l imp_new = (s, o) ->
  Forall2 imports (firstn (length (im_log s)) (samples_of l)) (im_log s) /\
  (o = IOk -> length (im_log s) = length (samples_of l) /\ im_made s = map tk_hdlr (traks_of l)) /\
  (o = IOk <-> sound l None [] None).
Proof.
  intros Np R E. rewrite (boxes_agree m) in E by exact Np. rewrite E in Np.
  destruct (boxes_debug w l _ _ _ _ _ _ stands_new E Np R) as (new & N1 & N2 & N3 & N4 & N5). cbn [imp_new im_log app] in N1. rewrite N1. auto.
Qed.
Lemma remembers_new : remembers [] [].
Proof. intros id t. split; [discriminate|]. intros (pre & i & x & post & Q & _). destruct pre; discriminate. Qed.
Theorem file_keys m w l s o : snd (boxes Debug w l imp_new) <> IPanic -> in_range w l -> boxes m w l imp_new = (s, o) ->
  (length (im_log s) <= length (infos l))%nat /\ keyed (combine (infos l) (map snd (im_log s))).
Proof.
  intros Np R E. rewrite (boxes_agree m) in E by exact Np. rewrite E in Np.
  assert (K0 : keyed []) by (intros pre i x post Q; destruct pre; discriminate).
  destruct (boxes_keys w l _ _ _ _ _ _ [] stands_new E Np R remembers_new K0) as (new & N1 & N2 & N3). cbn [imp_new im_log app] in N1. rewrite N1. auto.
Qed.
Theorem file_joined m w l s o : snd (boxes Debug w l imp_new) <> IPanic -> in_range w l -> (length (headers l) <= 1)%nat ->
  Forall supported (traks_of l) -> boxes m w l imp_new = (s, o) -> joined (combine (infos l) (map snd (im_log s))).
Proof.
  intros Np R H Sup E. destruct (file_keys m w l s o Np R E) as [L K].
  destruct (headers l) as [|v [|]] eqn:Hd; [| |cbn in H; lia].
  - assert (Z : forall l ks frag, headers l = [] -> all_infos (fragments l None ks frag) = []).
    { clear. induction l as [|[a n] l IH]; intros ks frag H; [reflexivity|]. destruct a; cbn [fragments]; try (apply IH; exact H); first [discriminate|reflexivity]. }
    change (infos l) with (all_infos (fragments l None [] None)). rewrite Z by exact Hd. intros pre j y mid i x post Q. destruct pre; discriminate.
  - apply (keyed_joined v); [| |exact K].
    + assert (T : forall l, traks_of l = flat_map mv_trak (headers l)).
      { clear. induction l as [|[a n] l IH]; [reflexivity|]. unfold traks_of, headers in *. cbn [flat_map fst]. rewrite IH. destruct a; reflexivity. }
      rewrite T, Hd in Sup. cbn in Sup. rewrite app_nil_r in Sup. exact Sup.
    + pose proof (under_all l None [] None v Hd) as U. change (all_infos (fragments l None [] None)) with (infos l) in U.
      clear - U. revert U. generalize (map snd (im_log s)). induction (infos l) as [|i is IH]; intros [|x xs] U; cbn; try constructor; inversion U; subst; auto.
Qed.


(** ** Everything before a bad box is imported *)
Definition longer (s s' : imp) : Prop := exists new, im_log s' = im_log s ++ new.
Lemma longer_refl s : longer s s.
Proof. exists []. rewrite app_nil_r. reflexivity. Qed.
Lemma longer_same s s' : im_log s' = im_log s -> longer s s'.
Proof. intros E. exists []. rewrite app_nil_r. exact E. Qed.
Lemma longer_trans a b c : longer a b -> longer b c -> longer a c.
Proof. intros [x X] [y Y]. exists (x ++ y). rewrite Y, X, app_assoc. reflexivity. Qed.
Lemma sample_longer m w v k t tf data e dts off s : longer s (fst (sample m w v k t tf data e dts off s)).
Proof.
  unfold sample. repeat (match goal with |- context [match ?x with _ => _ end] => destruct x end; try (apply longer_refl));
  cbn [fst]; try (apply longer_same; reflexivity); eexists; reflexivity.
Qed.
Lemma samples_longer m w v k t tf data es : forall dts off s, longer s (fst (samples m w v k t tf data es dts off s)).
Proof.
  induction es as [|e es IH]; intros dts off s; [apply longer_refl|]. cbn [samples].
  pose proof (sample_longer m w v k t tf data e dts off s) as L. destruct (sample m w v k t tf data e dts off s) as [s1 [d o|o]]; [|exact L].
  exact (longer_trans _ _ _ L (IH _ _ _)).
Qed.
Lemma trafs_longer m w v data hsize tfs : forall s, longer s (fst (trafs m w v data hsize tfs s)).
Proof.
  induction tfs as [|tf tfs IH]; intro s; [apply longer_refl|]. cbn [trafs].
  assert (L : longer s (fst (traf_step m w v data hsize tf s))).
  { unfold traf_step. destruct (hget _ _); [|apply longer_refl]. destruct (find _ _); [|apply longer_refl]. destruct (tf_run tf); [|apply longer_refl].
    destruct (tf_time tf); [|apply longer_refl]. destruct (run_offset _ _ _ _ _ _); [apply samples_longer|apply longer_refl..]. }
  destruct (traf_step m w v data hsize tf s) as [s1 [| |]]; [|exact L..]. exact (longer_trans _ _ _ L (IH _)).
Qed.
Lemma init_longer ks : forall s, longer s (fst (init_traks ks s)).
Proof.
  induction ks as [|k ks IH]; intro s; [apply longer_refl|]. cbn [init_traks]. destruct (tk_hdlr k); try apply longer_refl; (destruct (tk_codec k); [apply longer_refl|]);
  exact (longer_trans _ _ _ (longer_same s (iwith_track s _ _) eq_refl) (IH _)).
Qed.
Lemma process_longer m w a n s : longer s (fst (process m w a n s)).
Proof.
  destruct a as [|v|f|d|]; cbn [process]; try apply longer_refl.
  - unfold init. pose proof (init_longer (mv_trak v) s) as L. destruct (init_traks (mv_trak v) s) as [s1 [| |]]; [|exact L..].
    exact (longer_trans _ _ _ L (longer_same s1 _ eq_refl)).
  - destruct (im_moof s); [apply longer_refl|apply longer_same; reflexivity].
  - destruct (usub _ _ _ _); [|apply longer_refl]. unfold extract. destruct (im_moov s); [|apply longer_refl]. destruct (im_moof s); [|apply longer_refl].
    eapply longer_trans; [|apply trafs_longer]. apply longer_same. reflexivity.
Qed.
Lemma boxes_longer m w l : forall s, longer s (fst (boxes m w l s)).
Proof.
  induction l as [|[a n] l IH]; intro s; [apply longer_refl|]. cbn [boxes]. pose proof (process_longer m w a (N.of_nat n) s) as L.
  destruct (process m w a (N.of_nat n) s) as [s1 [| |]]; [|exact L..]. exact (longer_trans _ _ _ L (IH _)).
Qed.
Lemma boxes_app m w l1 l2 : forall s, boxes m w (l1 ++ l2) s = match boxes m w l1 s with (s1, IOk) => boxes m w l2 s1 | r => r end.
Proof.
  induction l1 as [|[a n] l1 IH]; intro s; [reflexivity|]. cbn [app boxes]. destruct (process m w a (N.of_nat n) s) as [s1 [| |]]; [apply IH|reflexivity..].
Qed.
Theorem file_before m w l1 l2 s o : snd (boxes Debug w l1 imp_new) <> IPanic -> in_range w l1 -> sound l1 None [] None -> boxes m w (l1 ++ l2) imp_new = (s, o) ->
  exists before after, im_log s = before ++ after /\ Forall2 imports (samples_of l1) before.
Proof.
  intros Np R S E. rewrite boxes_app in E. destruct (boxes m w l1 imp_new) as [s1 o1] eqn:E1.
  destruct (file_exact m w l1 s1 o1 Np R E1) as (F & Ok & Iff). apply Iff in S. subst o1. destruct (Ok eq_refl) as [Ln _]. rewrite Ln, firstn_all in F.
  pose proof (boxes_longer m w l2 s1) as [new L]. rewrite E in L. exists (im_log s1), new. auto.
Qed.
