(** The publishing element of a web page. *)
From Coq Require Import NArith Arith List Lia Bool.
From Coq Require Import Init.Byte Strings.Byte.
From Verif.Model Require Import Base Map Text Player WebPublish.
From Verif.Spec Require Import WebPublishSpec.
From Verif.Proofs Require Import TextP PlayerP.
Import ListNotations.

Lemma urun_app s a b : urun s (a ++ b) =
  (fst (urun (fst (urun s a)) b), snd (urun s a) ++ snd (urun (fst (urun s a)) b)).
Proof.
  revert s. induction a as [|o a IH]; intro s; cbn [app urun fst snd].
  - destruct (urun s b); reflexivity.
  - destruct (ustep s o) as [s1 x]. rewrite IH. destruct (urun s1 a) as [s2 tr]. reflexivity.
Qed.
Lemma urun_snoc s a o : urun s (a ++ [o]) =
  (fst (ustep (fst (urun s a)) o), snd (urun s a) ++ [(o, snd (ustep (fst (urun s a)) o))]).
Proof. rewrite urun_app. cbn [urun]. destruct (ustep (fst (urun s a)) o). reflexivity. Qed.
Lemma ueffects_snoc (tr : uevents) e : ueffects (tr ++ [e]) = ueffects tr ++ snd e.
Proof. unfold ueffects. rewrite flat_map_app. cbn. rewrite app_nil_r. reflexivity. Qed.

Lemma published_app x y : published_in (x ++ y) = published_in y ++ published_in x.
Proof. unfold published_in. rewrite flat_map_app, rev_app_distr. reflexivity. Qed.
Lemma published_cons e x : published_in (e :: x) = published_in x ++ published_in [e].
Proof. apply (published_app [e]). Qed.
Lemma published_snoc tr e : published (tr ++ [e]) = published_in (snd e) ++ published tr.
Proof. unfold published. rewrite ueffects_snoc. apply published_app. Qed.

Lemma published_gone s s' : published_in (gone s s') = [].
Proof.
  unfold published_in, gone. replace (flat_map _ (flat_map _ _)) with (@nil nat); [reflexivity|].
  induction (seq 0 (pb_count s)) as [|b l IH]; [reflexivity|]. cbn [flat_map]. rewrite flat_map_app, <- IH.
  destruct (held s b && negb (held s' b)); reflexivity.
Qed.
Lemma In_gone s s' x : In x (gone s s') <-> exists b, x = XGone b /\ b < pb_count s /\ held s b = true /\ held s' b = false.
Proof.
  unfold gone. rewrite in_flat_map. split.
  - intros (b & Hb & H). apply in_seq in Hb. destruct (held s b) eqn:A, (held s' b) eqn:B; cbn in H; try contradiction.
    destruct H as [<-|[]]. exists b. repeat split; auto; lia.
  - intros (b & -> & Hb & A & B). exists b. split; [apply in_seq; lia|]. rewrite A, B. cbn. auto.
Qed.

(** An encoder against the broadcasts published since it was made. *)
Definition kok (oe : option encoder) (l : list nat) : Prop := forall e, oe = Some e ->
  (forall b, In b (en_in e) -> In b l) /\ (forall b, en_saved e = Some b -> In b l) /\
  (forall b, hd_error l = Some b -> In b (en_in e) \/ en_saved e = Some b).

Lemma kok_none l : kok None l. Proof. intros e E. discriminate. Qed.
Lemma kok_fresh id : kok (Some (Encoder id false None [])) [].
Proof. intros e E. injection E as <-. cbn. repeat split; auto; discriminate. Qed.
Lemma kok_publish k oe l b : kok oe l -> kok (fst (publish_opt k oe b)) (b :: l).
Proof.
  intros K. destruct oe as [e|]; [|apply kok_none]. destruct (K e eq_refl) as (A & B & D). cbn. unfold publish_to.
  destruct (en_ready e); cbn; intros e' E; injection E as <-; cbn.
  - split; [intros c [H|H]; auto|]. split; [auto|]. intros c H. injection H as <-. auto.
  - split; [auto|]. split; [intros c H; injection H as <-; auto|]. intros c H. injection H as <-. auto.
Qed.
Lemma kok_encoded k e l : kok (Some e) l -> en_ready e = true ->
  kok (Some (fst (match en_saved e with Some b => publish_to k (Encoder (en_id e) true None (en_in e)) b
                  | None => (Encoder (en_id e) true None (en_in e), []) end))) l.
Proof.
  intros K R. destruct (K e eq_refl) as (A & B & D). destruct (en_saved e) as [c|] eqn:S; cbn; intros e' E; injection E as <-; cbn.
  - split; [intros x [<-|H]; auto|]. split; [discriminate|]. intros x H. destruct (D x H) as [I|I]; [auto|]. injection I as <-. auto.
  - split; [auto|]. split; [discriminate|]. intros x H. destruct (D x H) as [I|I]; [auto|discriminate].
Qed.

(** The state against the events. *)
Record uinv (s : pub) (tr : uevents) : Prop := {
  ui_dead : pb_dead s = false;
  ui_none : pb_broadcast s = None;
  ui_req : pb_connect s = requested tr;
  ui_pub : published tr = rev (seq 0 (pb_count s));
  ui_enc : forall k, has_encoder k tr = match enc_of s k with Some _ => true | None => false end;
  ui_k : forall k, kok (enc_of s k) (since k tr);
  ui_since : forall k b, In b (since k tr) -> b < pb_count s;
  ui_gone : forall b, over tr b <-> b < pb_count s /\ held s b = false }.

Lemma uinv_new : uinv pub_new [].
Proof.
  split; cbn; auto; try contradiction; try (intros []; reflexivity); try (intros []; apply kok_none).
  intro b. unfold over. cbn. split; [tauto|lia].
Qed.

(** Effects that neither publish nor end anything. *)
Definition silent (x : list ueffect) : Prop := published_in x = [] /\ forall b, ~ In (XGone b) x.

Lemma over_snoc tr o x b : over (tr ++ [(o, x)]) b <-> over tr b \/ In (XGone b) x.
Proof. unfold over. rewrite ueffects_snoc, in_app_iff. reflexivity. Qed.
Lemma since_snoc k tr o x : since k (tr ++ [(o, x)]) =
  match o with
  | UInit k' true => if same_kind k k' then [] else published_in x ++ since k tr
  | _ => published_in x ++ since k tr end.
Proof. unfold since. rewrite fold_left_app. reflexivity. Qed.
Lemma has_encoder_snoc k tr o x : has_encoder k (tr ++ [(o, x)]) =
  match o with
  | UInit k' true => if same_kind k k' then true else has_encoder k tr
  | UClose k' => if same_kind k k' then false else has_encoder k tr
  | _ => has_encoder k tr end.
Proof. unfold has_encoder. rewrite fold_left_app. reflexivity. Qed.
Lemma requested_snoc tr o x : requested (tr ++ [(o, x)]) = match o with UConnect p => p | USession _ => None | _ => requested tr end.
Proof. unfold requested. rewrite fold_left_app. reflexivity. Qed.

Lemma same_kind_refl k : same_kind k k = true. Proof. destruct k; reflexivity. Qed.
Lemma enc_with s k e k' : enc_of (with_enc s k e) k' = if same_kind k' k then e else enc_of s k'.
Proof. destruct k, k'; reflexivity. Qed.

(** An event that publishes nothing, and after which less is held. *)
Lemma uinv_event s tr s' o x : uinv s tr -> pb_dead s' = false -> pb_broadcast s' = None -> pb_count s' = pb_count s ->
  pb_connect s' = match o with UConnect p => p | USession _ => None | _ => pb_connect s end ->
  published_in x = [] ->
  (forall b, In (XGone b) x <-> b < pb_count s /\ held s b = true /\ held s' b = false) ->
  (forall b, held s' b = true -> held s b = true) ->
  (forall k, has_encoder k (tr ++ [(o, x)]) = match enc_of s' k with Some _ => true | None => false end) ->
  (forall k, kok (enc_of s' k) (since k (tr ++ [(o, x)]))) ->
  uinv s' (tr ++ [(o, x)]).
Proof.
  intros [I1 I2 I3 I4 I5 I6 I7 I8] D B Cn Cc P G M E K. split; auto.
  - rewrite Cc, requested_snoc, I3. destruct o; reflexivity.
  - rewrite published_snoc, Cn. cbn [snd]. rewrite P. exact I4.
  - intros k b. rewrite since_snoc, P, Cn. destruct o as [p|k' []|k'|k'|ok|k'|k']; try apply I7.
    destruct (same_kind k k'); [intros []|apply I7].
  - intro b. rewrite over_snoc, I8, G, Cn. specialize (M b). destruct (held s b), (held s' b); intuition congruence.
Qed.

Lemma gone_quiet s s' y : (forall b, ~ In (XGone b) y) ->
  forall b, In (XGone b) (y ++ gone s s') <-> b < pb_count s /\ held s b = true /\ held s' b = false.
Proof.
  intros Y b. rewrite in_app_iff, In_gone. split.
  - intros [H|(c & E & H)]; [destruct (Y b H)|]. injection E as <-. exact H.
  - intro H. right. exists b. auto.
Qed.

Lemma holds_publish k oe b c : holds c (fst (publish_opt k oe b)) = true -> c <> b -> holds c oe = true.
Proof.
  intros H N. destruct oe as [e|]; [|exact H]. cbn in *. unfold publish_to in H. destruct (en_ready e); cbn in H.
  - apply orb_true_iff in H. apply orb_true_iff. destruct H as [H|H]; [auto|]. apply orb_true_iff in H. destruct H as [H|H]; [|auto].
    apply Nat.eqb_eq in H. congruence.
  - apply orb_true_iff in H. apply orb_true_iff. destruct H as [H|H]; [|auto]. apply Nat.eqb_eq in H. congruence.
Qed.
Lemma publish_quiet k oe b : published_in (snd (publish_opt k oe b)) = [] /\ (forall c, ~ In (XGone c) (snd (publish_opt k oe b))) /\
  ~ In XPanic (snd (publish_opt k oe b)).
Proof. destruct oe as [e|]; cbn; [|auto]. unfold publish_to. destruct (en_ready e); cbn; repeat split; auto; intuition discriminate. Qed.

Lemma uinv_step s tr o s' x : uinv s tr -> ustep s o = (s', x) -> ~ In XPanic x -> uinv s' (tr ++ [(o, x)]).
Proof.
  intros I E NP. pose proof I as [I1 I2 I3 I4 I5 I6 I7 I8]. unfold ustep in E. rewrite I1 in E.
  assert (Hs : forall b, held s b = holds b (pb_audio s) || holds b (pb_video s)) by (intro b; unfold held; rewrite I2, orb_false_r; reflexivity).
  destruct o as [p|k ok|k|k|ok|k|k].
  - injection E as <- <-. apply (uinv_event s); auto.
    + intro b. split; [intros []|]. intros (_ & A & B). change (held s b = false) in B. congruence.
    + intro k. rewrite has_encoder_snoc. destruct k; [apply (I5 Audio)|apply (I5 Video)].
    + intro k. rewrite since_snoc. cbn. destruct k; [apply (I6 Audio)|apply (I6 Video)].
  - destruct ok.
    + rewrite I2 in E. cbn [app] in E. cbv zeta in E.
      set (s1 := match k with Audio => _ | Video => _ end) in E. injection E as <- <-.
      assert (En : forall k', enc_of s1 k' = if same_kind k' k then Some (Encoder (match k with Audio => pb_audio_id s | Video => pb_video_id s end) false None []) else enc_of s k').
      { intro k'. subst s1. destruct k, k'; reflexivity. }
      assert (P : published_in (XTrack k (track_name k match k with Audio => pb_audio_id s | Video => pb_video_id s end) :: gone s s1) = []).
      { rewrite published_cons, published_gone. reflexivity. }
      assert (Cn : pb_count s1 = pb_count s /\ pb_broadcast s1 = None /\ pb_dead s1 = false /\ pb_connect s1 = pb_connect s) by (subst s1; destruct k; auto).
      destruct Cn as (Cn & Bn & Dn & Cc).
      apply (uinv_event s); auto.
      * apply (gone_quiet s s1 [_]). intros b [H|[]]. discriminate.
      * intros b H. rewrite Hs. unfold held in H. rewrite Bn, orb_false_r in H. subst s1. destruct k; cbn in H |- *; rewrite ?orb_false_r in H; rewrite H, ?orb_true_r; reflexivity.
      * intro k'. rewrite has_encoder_snoc, En. destruct (same_kind k' k); [reflexivity|]. apply I5.
      * intro k'. rewrite since_snoc, En, P. destruct (same_kind k' k); [apply kok_fresh|]. apply I6.
    + injection E as <- <-. apply (uinv_event s); auto.
      * intro b. split; [intros []|]. intros (_ & A & B). congruence.
      * intro k'. rewrite has_encoder_snoc. apply I5.
      * intro k'. rewrite since_snoc. apply I6.
  - assert (X : s' = s /\ silent x).
    { destruct (enc_of s k); injection E as <- <-; split; auto; split; auto; cbn; intuition discriminate. }
    destruct X as [-> [P G]]. apply (uinv_event s); auto.
    + intro b. split; [intro H; destruct (G b H)|]. intros (_ & A & B). congruence.
    + intro k'. rewrite has_encoder_snoc. apply I5.
    + intro k'. rewrite since_snoc, P. apply I6.
  - injection E as <- <-. pose proof (published_gone s (with_enc s k None)) as P.
    assert (Cn : pb_count (with_enc s k None) = pb_count s /\ pb_broadcast (with_enc s k None) = None /\ pb_dead (with_enc s k None) = false /\ pb_connect (with_enc s k None) = pb_connect s) by (destruct k; auto).
    destruct Cn as (Cn & Bn & Dn & Cc). apply (uinv_event s); auto.
    + apply (gone_quiet s _ []). intros b [].
    + intros b H. rewrite Hs. unfold held in H. rewrite Bn, orb_false_r in H. destruct k; cbn in H |- *; rewrite ?orb_false_r in H; rewrite H, ?orb_true_r; reflexivity.
    + intro k'. rewrite has_encoder_snoc, enc_with. destruct (same_kind k' k); [reflexivity|]. apply I5.
    + intro k'. rewrite since_snoc, enc_with, P. destruct (same_kind k' k); [apply kok_none|]. apply I6.
  - destruct (pb_connect s) as [p|] eqn:Pc.
    2:{ injection E as <- <-. apply (uinv_event s); auto.
        - intro b. split; [intros [H|[]]; discriminate|]. intros (_ & A & B). congruence.
        - intro k'. rewrite has_encoder_snoc. apply I5.
        - intro k'. rewrite since_snoc. apply I6. }
    destruct ok.
    + destruct (strip_slash p) as [q|]; [|injection E as <- <-; destruct NP; cbn; auto].
      cbv zeta in E. cbn [pb_video pb_audio pb_broadcast pb_audio_id pb_video_id pb_count pb_dead] in E.
      set (b := pb_count s) in E.
      pose proof (publish_quiet Video (pb_video s) b) as (V1 & V2 & V3). pose proof (publish_quiet Audio (pb_audio s) b) as (A1 & A2 & A3).
      pose proof (kok_publish Video (pb_video s) (since Video tr) b (I6 Video)) as KV.
      pose proof (kok_publish Audio (pb_audio s) (since Audio tr) b (I6 Audio)) as KA.
      pose proof (holds_publish Video (pb_video s) b) as HV. pose proof (holds_publish Audio (pb_audio s) b) as HA.
      assert (EV : match fst (publish_opt Video (pb_video s) b) with Some _ => true | None => false end = match pb_video s with Some _ => true | None => false end).
      { destruct (pb_video s) as [e|]; [|reflexivity]. cbn. destruct (publish_to Video e b); reflexivity. }
      assert (EA : match fst (publish_opt Audio (pb_audio s) b) with Some _ => true | None => false end = match pb_audio s with Some _ => true | None => false end).
      { destruct (pb_audio s) as [e|]; [|reflexivity]. cbn. destruct (publish_to Audio e b); reflexivity. }
      destruct (publish_opt Video (pb_video s) b) as [v xv]. destruct (publish_opt Audio (pb_audio s) b) as [a xa]. cbn [fst snd] in *.
      set (s1 := Pub None (pb_broadcast s) a _ _ _ _ _) in E. set (s0 := Pub None (pb_broadcast s) (pb_audio s) _ _ _ _ _) in E.
      injection E as <- <-.
      assert (H1 : forall c, held s1 c = holds c a || holds c v) by (intro c; unfold held; subst s1; cbn; rewrite I2, orb_false_r; reflexivity).
      assert (H0 : forall c, held s0 c = held s c) by reflexivity.
      assert (Mono : forall c, c <> b -> held s1 c = true -> held s c = true).
      { intros c N H. rewrite H1 in H. rewrite Hs. apply orb_true_iff in H. apply orb_true_iff. destruct H; auto. }
      assert (P : published_in (XPublish b (q ++ q) :: xv ++ xa ++ gone s0 s1 ++ (if held s1 b then [] else [XGone b])) = [b]).
      { rewrite published_cons, !published_app, V1, A1, published_gone. destruct (held s1 b); reflexivity. }
      assert (G : forall c, In (XGone c) (XPublish b (q ++ q) :: xv ++ xa ++ gone s0 s1 ++ (if held s1 b then [] else [XGone b])) <->
                  (c < b /\ held s c = true /\ held s1 c = false) \/ (c = b /\ held s1 b = false)).
      { intro c. cbn [In]. rewrite !in_app_iff, In_gone. split.
        - intros [H|[H|[H|[(d & Ed & H)|H]]]]; [discriminate|destruct (V2 c H)|destruct (A2 c H)| |].
          + injection Ed as <-. left. exact H.
          + destruct (held s1 b); [destruct H|]. destruct H as [H|[]]. injection H as <-. auto.
        - intros [H|[-> H]].
          + do 3 right. left. exists c. auto.
          + do 4 right. rewrite H. cbn. auto. }
      split; auto.
      * rewrite requested_snoc. reflexivity.
      * rewrite published_snoc. cbn [snd]. rewrite P, I4. subst s1. cbn [pb_count]. rewrite seq_S, rev_app_distr. reflexivity.
      * intro k. rewrite has_encoder_snoc, I5. destruct k; symmetry; [exact EA|exact EV].
      * intro k. rewrite since_snoc, P. destruct k; [exact KA|exact KV].
      * intros k c. rewrite since_snoc, P. subst s1. cbn [pb_count]. intros [<-|H]; [lia|]. apply I7 in H. fold b in H. lia.
      * intro c. rewrite over_snoc, I8, G. fold b. subst s1. cbn [pb_count]. set (s1 := Pub None (pb_broadcast s) a _ _ _ _ _) in *.
        destruct (Nat.eq_dec c b) as [->|Ne].
        -- split; [intros [[H _]|[[H _]|[_ H]]]; [lia|lia|auto]|]. intros [_ H]. auto.
        -- specialize (Mono c Ne). destruct (held s c), (held s1 c); split; intro H; intuition (try lia; try congruence).
    + injection E as <- <-. apply (uinv_event s); auto.
      * intro b. split; [intros []|]. intros (_ & A & B). change (held s b = false) in B. congruence.
      * intro k'. rewrite has_encoder_snoc. destruct k'; [apply (I5 Audio)|apply (I5 Video)].
      * intro k'. rewrite since_snoc. cbn. destruct k'; [apply (I6 Audio)|apply (I6 Video)].
  - destruct (enc_of s k) as [e|] eqn:Ek.
    2:{ injection E as <- <-. apply (uinv_event s); auto.
        - intro b. split; [intros [H|[]]; discriminate|]. intros (_ & A & B). congruence.
        - intro k'. rewrite has_encoder_snoc. apply I5.
        - intro k'. rewrite since_snoc. apply I6. }
    injection E as <- <-. set (e' := Encoder _ _ _ _).
    assert (Hh : forall b, held (with_enc s k (Some e')) b = held s b).
    { intro b. unfold held. destruct k; cbn in Ek |- *; rewrite Ek; reflexivity. }
    assert (Cn : pb_count (with_enc s k (Some e')) = pb_count s /\ pb_broadcast (with_enc s k (Some e')) = None /\ pb_dead (with_enc s k (Some e')) = false /\ pb_connect (with_enc s k (Some e')) = pb_connect s) by (destruct k; auto).
    destruct Cn as (Cn & Bn & Dn & Cc). apply (uinv_event s); auto.
    + intro b. split; [intros []|]. intros (_ & A & B). rewrite Hh in B. congruence.
    + intros b H. rewrite Hh in H. exact H.
    + intro k'. rewrite has_encoder_snoc, enc_with. destruct (same_kind k' k) eqn:Sk; [|apply I5].
      rewrite I5. assert (k' = k) by (destruct k, k'; auto; discriminate). subst k'. rewrite Ek. reflexivity.
    + intro k'. rewrite since_snoc, enc_with. destruct (same_kind k' k) eqn:Sk; [|apply I6].
      assert (k' = k) by (destruct k, k'; auto; discriminate). subst k'. intros e0 E0. injection E0 as <-. pose proof (I6 k) as K. rewrite Ek in K. exact (K e eq_refl).
  - destruct (enc_of s k) as [e|] eqn:Ek.
    2:{ injection E as <- <-. apply (uinv_event s); auto.
        - intro b. split; [intros [H|[]]; discriminate|]. intros (_ & A & B). congruence.
        - intro k'. rewrite has_encoder_snoc. apply I5.
        - intro k'. rewrite since_snoc. apply I6. }
    destruct (en_ready e) eqn:R.
    2:{ injection E as <- <-. apply (uinv_event s); auto.
        - intro b. split; [intros [H|[]]; discriminate|]. intros (_ & A & B). congruence.
        - intro k'. rewrite has_encoder_snoc. apply I5.
        - intro k'. rewrite since_snoc. apply I6. }
    cbv zeta in E. pose proof (I6 k) as K. rewrite Ek in K. pose proof (kok_encoded k e _ K R) as K'.
    set (r := match en_saved e with Some _ => _ | None => _ end) in *.
    assert (Q : published_in (snd r) = [] /\ (forall b, ~ In (XGone b) (snd r)) /\ forall b, holds b (Some (fst r)) = holds b (Some e)).
    { subst r. destruct (en_saved e) as [c|] eqn:Sv; cbn [snd fst publish_to en_ready].
      - split; [reflexivity|]. split; [cbn; intuition discriminate|]. intro b. cbn. rewrite Sv. reflexivity.
      - split; [reflexivity|]. split; [cbn; intuition discriminate|]. intro b. cbn. rewrite Sv. reflexivity. }
    destruct r as [e' y]. cbn [fst snd] in *. injection E as <- <-. destruct Q as (Q1 & Q2 & Q3).
    assert (Hh : forall b, held (with_enc s k (Some e')) b = held s b).
    { intro b. unfold held. destruct k; cbn [enc_of with_enc pb_audio pb_video pb_broadcast] in *; rewrite Q3, Ek; reflexivity. }
    assert (P : published_in (y ++ [XWrite k (en_in e')]) = []) by (rewrite published_app, Q1; reflexivity).
    assert (Cn : pb_count (with_enc s k (Some e')) = pb_count s /\ pb_broadcast (with_enc s k (Some e')) = None /\ pb_dead (with_enc s k (Some e')) = false /\ pb_connect (with_enc s k (Some e')) = pb_connect s) by (destruct k; auto).
    destruct Cn as (Cn & Bn & Dn & Cc). apply (uinv_event s); auto.
    + intro b. split.
      * intro H. apply in_app_or in H. destruct H as [H|[H|[]]]; [destruct (Q2 b H)|discriminate].
      * intros (_ & A & B). rewrite Hh in B. congruence.
    + intros b H. rewrite Hh in H. exact H.
    + intro k'. rewrite has_encoder_snoc, enc_with. destruct (same_kind k' k) eqn:Sk; [|apply I5].
      rewrite I5. assert (k' = k) by (destruct k, k'; auto; discriminate). subst k'. rewrite Ek. reflexivity.
    + intro k'. rewrite since_snoc, enc_with, P. destruct (same_kind k' k) eqn:Sk; [|apply I6].
      assert (k' = k) by (destruct k, k'; auto; discriminate). subst k'. exact K'.
Qed.

Lemma uinv_run ops : ~ crashed (snd (urun pub_new ops)) -> uinv (fst (urun pub_new ops)) (snd (urun pub_new ops)).
Proof.
  induction ops as [|o ops IH] using rev_ind; [intros _; exact uinv_new|].
  rewrite urun_snoc. cbn [fst snd]. intro P. unfold crashed in *. rewrite ueffects_snoc in P. cbn [snd] in P.
  eapply uinv_step; [apply IH|apply surjective_pairing|]; intro H; apply P; apply in_or_app; auto.
Qed.
Lemma run_uinv ops s tr : urun pub_new ops = (s, tr) -> ~ crashed tr -> uinv s tr.
Proof. intros E P. pose proof (uinv_run ops) as H. rewrite E in H. auto. Qed.

(** ** Consequences *)
Definition plain (x : ueffect) : Prop := match x with XGone _ | XAdd _ _ _ => True | _ => False end.
Lemma gone_plain s s' x : In x (gone s s') -> plain x.
Proof. intro H. apply In_gone in H. destruct H as (b & -> & _). exact I. Qed.
Lemma publish_plain k oe b x : In x (snd (publish_opt k oe b)) -> plain x.
Proof. destruct oe as [e|]; cbn; [|intros []]. unfold publish_to. destruct (en_ready e); cbn; [|intros []]. intros [<-|[]]. exact I. Qed.

(** What can be among the effects of a step. *)
Lemma step_effects s tr o x : uinv s tr -> In x (snd (ustep s o)) -> plain x \/ x = XBad \/
  match o with
  | UInit k true => x = XTrack k (track_name k match k with Audio => pb_audio_id s | Video => pb_video_id s end)
  | UFrame k => x = XEncode k /\ enc_of s k <> None
  | USession true => exists p, pb_connect s = Some p /\
      match strip_slash p with Some q => x = XPublish (pb_count s) (q ++ q) | None => x = XPanic end
  | UEncoded k => exists e, enc_of s k = Some e /\ x = XWrite k (match en_saved e with Some b => b :: en_in e | None => en_in e end)
  | _ => False
  end.
Proof.
  intros I H. unfold ustep in H. rewrite (ui_dead _ _ I) in H.
  destruct o as [p|k' ok|k'|k'|ok|k'|k'].
  - destruct H.
  - destruct ok; [|destruct H]. rewrite (ui_none _ _ I) in H. cbv zeta in H. cbn [snd app] in H. destruct H as [<-|H]; [auto|]. left. eapply gone_plain. exact H.
  - destruct (enc_of s k'); cbn in H; [|destruct H]. destruct H as [<-|[]]. right. right. split; [reflexivity|discriminate].
  - cbn [snd] in H. left. eapply gone_plain. exact H.
  - destruct (pb_connect s) as [p|]; [|cbn in H; destruct H as [<-|[]]; auto]. destruct ok; [|destruct H].
    destruct (strip_slash p) as [q|] eqn:Q; [|cbn in H; destruct H as [<-|[]]; right; right; exists p; rewrite Q; auto]. cbv zeta in H.
    cbn [pb_video pb_audio pb_broadcast pb_audio_id pb_video_id pb_count pb_dead] in H.
    pose proof (publish_plain Video (pb_video s) (pb_count s)) as PV. pose proof (publish_plain Audio (pb_audio s) (pb_count s)) as PA.
    destruct (publish_opt Video (pb_video s) (pb_count s)) as [v xv]. destruct (publish_opt Audio (pb_audio s) (pb_count s)) as [a xa]. cbn [snd] in *.
    destruct H as [<-|H]; [right; right; exists p; rewrite Q; auto|]. rewrite !in_app_iff in H. left. destruct H as [H|[H|[H|H]]]; auto.
    + eapply gone_plain. exact H.
    + destruct (held _ (pb_count s)); [destruct H|]. destruct H as [<-|[]]. exact Logic.I.
  - destruct (enc_of s k'); cbn in H; [destruct H|]. destruct H as [<-|[]]. auto.
  - destruct (enc_of s k') as [e|]; [|cbn in H; destruct H as [<-|[]]; auto]. destruct (en_ready e); [|cbn in H; destruct H as [<-|[]]; auto].
    cbv zeta in H. destruct (en_saved e) as [b|] eqn:Sv; cbn in H.
    + destruct H as [<-|[<-|[]]]; [left; exact Logic.I|]. right. right. exists e. rewrite Sv. auto.
    + destruct H as [<-|[]]. right. right. exists e. rewrite Sv. auto.
Qed.

Theorem write_dests ops s tr o k dests : urun pub_new ops = (s, tr) -> ~ crashed tr ->
  In (XWrite k dests) (snd (ustep s o)) ->
  o = UEncoded k /\ has_encoder k tr = true /\ (forall b, In b dests -> In b (since k tr) /\ ~ over tr b) /\
  (forall b, hd_error (since k tr) = Some b -> In b dests).
Proof.
  intros E P H. pose proof (run_uinv _ _ _ E P) as I. destruct (step_effects _ _ _ _ I H) as [B|[B|B]]; [destruct B|discriminate|].
  destruct o as [p|k' []|k'|k'|[]|k'|k']; try contradiction.
  - discriminate.
  - destruct B as [B _]. discriminate.
  - destruct B as (x & _ & B). destruct (strip_slash x); discriminate.
  - destruct B as (x & En & B). injection B as -> ->. split; [reflexivity|]. rewrite (ui_enc _ _ I), En. split; [reflexivity|].
    destruct (ui_k _ _ I k' x En) as (K1 & K2 & K3). split.
    + intros b Hb. split.
      * destruct (en_saved x) as [c|] eqn:Sv; [destruct Hb as [<-|Hb]|]; auto.
      * intro O. apply (ui_gone _ _ I) in O. destruct O as [_ O].
        assert (Hh : holds b (Some x) = true).
        { cbn. apply orb_true_iff. destruct (en_saved x) as [c|] eqn:Sv.
          - destruct Hb as [->|Hb]; [left; apply Nat.eqb_refl|right]. apply existsb_exists. exists b. split; [exact Hb|apply Nat.eqb_refl].
          - right. apply existsb_exists. exists b. split; [exact Hb|apply Nat.eqb_refl]. }
        unfold held in O. destruct k'; cbn in En; rewrite En, Hh in O; [|rewrite orb_true_r in O]; discriminate.
    + intros b Hb. destruct (K3 b Hb) as [C|C]; [destruct (en_saved x); cbn; auto|]. rewrite C. cbn. auto.
Qed.

Theorem publish_path ops s tr o b p : urun pub_new ops = (s, tr) -> ~ crashed tr ->
  In (XPublish b p) (snd (ustep s o)) -> o = USession true /\ exists q, requested tr = Some ("/"%byte :: q) /\ p = q ++ q.
Proof.
  intros E P H. pose proof (run_uinv _ _ _ E P) as I. destruct (step_effects _ _ _ _ I H) as [B|[B|B]]; [destruct B|discriminate|].
  destruct o as [p'|k' []|k'|k'|[]|k'|k']; try contradiction.
  - discriminate.
  - destruct B as [B _]. discriminate.
  - destruct B as (x & C & B). destruct (strip_slash x) as [q|] eqn:Q; [|discriminate]. injection B as -> ->. apply strip_slash_spec in Q.
    split; [reflexivity|]. exists q. rewrite <- (ui_req _ _ I), C, Q. auto.
  - destruct B as (x & _ & B). discriminate.
Qed.
Theorem publishes ops s tr q : urun pub_new ops = (s, tr) -> ~ crashed tr -> requested tr = Some ("/"%byte :: q) ->
  exists b, In (XPublish b (q ++ q)) (snd (ustep s (USession true))).
Proof.
  intros E P H. pose proof (run_uinv _ _ _ E P) as I. unfold ustep. rewrite (ui_dead _ _ I), (ui_req _ _ I), H. cbn [strip_slash].
  change (Byte.eqb "/" "/") with true. cbn iota. cbv zeta. exists (pb_count s). cbn [pb_video pb_audio pb_count].
  destruct (publish_opt Video (pb_video s) (pb_count s)) as [v xv]. destruct (publish_opt Audio (pb_audio s) (pb_count s)) as [a xa].
  left. reflexivity.
Qed.
Theorem encodes ops s tr o k : urun pub_new ops = (s, tr) -> ~ crashed tr ->
  (In (XEncode k) (snd (ustep s o)) <-> o = UFrame k /\ has_encoder k tr = true).
Proof.
  intros E P. pose proof (run_uinv _ _ _ E P) as I. split.
  - intro H. destruct (step_effects _ _ _ _ I H) as [B|[B|B]]; [destruct B|discriminate|].
    destruct o as [p'|k' []|k'|k'|[]|k'|k']; try contradiction.
    + discriminate.
    + destruct B as [B N]. injection B as ->. split; [reflexivity|]. rewrite (ui_enc _ _ I). destruct (enc_of s k'); congruence.
    + destruct B as (x & _ & B). destruct (strip_slash x); discriminate.
    + destruct B as (x & _ & B). discriminate.
  - intros [-> H]. rewrite (ui_enc _ _ I) in H. unfold ustep. rewrite (ui_dead _ _ I). destruct (enc_of s k); [cbn; auto|discriminate].
Qed.
Theorem closed_over ops s tr b : urun pub_new ops = (s, tr) -> ~ crashed tr ->
  has_encoder Audio tr = false -> has_encoder Video tr = false -> In b (published tr) -> over tr b.
Proof.
  intros E P A V H. pose proof (run_uinv _ _ _ E P) as I. rewrite (ui_pub _ _ I) in H. apply in_rev, in_seq in H.
  rewrite (ui_enc _ _ I) in A, V. cbn in A, V. apply (ui_gone _ _ I). split; [lia|]. unfold held. rewrite (ui_none _ _ I).
  destruct (pb_audio s); [discriminate|]. destruct (pb_video s); [discriminate|]. reflexivity.
Qed.
Theorem since_published ops s tr k b : urun pub_new ops = (s, tr) -> ~ crashed tr -> In b (since k tr) -> In b (published tr).
Proof.
  intros E P H. pose proof (run_uinv _ _ _ E P) as I. apply (ui_since _ _ I) in H. rewrite (ui_pub _ _ I). apply in_rev. rewrite rev_involutive. apply in_seq. lia.
Qed.

(** ** Names *)
Lemma show_inj a b : show 10 a = show 10 b -> a = b.
Proof.
  intro H. pose proof (parse_show 10 (N.max a b) a ltac:(lia) ltac:(lia)) as A. pose proof (parse_show 10 (N.max a b) b ltac:(lia) ltac:(lia)) as B.
  rewrite H in A. congruence.
Qed.
Lemma track_name_inj k id k' id' : track_name k id = track_name k' id' -> k = k' /\ id = id'.
Proof.
  destruct k, k'; intro H; try discriminate H; cbn [track_name app] in H; injection H as H; apply show_inj in H; auto.
Qed.
Definition next_id (s : pub) (k : kind) : N := match k with Audio => pb_audio_id s | Video => pb_video_id s end.
Definition names_in (x : list ueffect) : list bytes := flat_map (fun e => match e with XTrack _ n => [n] | _ => [] end) x.
Lemma names_snoc tr e : names (tr ++ [e]) = names tr ++ names_in (snd e).
Proof. unfold names. rewrite ueffects_snoc. apply flat_map_app. Qed.
Lemma names_plain x : (forall e, In e x -> match e with XTrack _ _ => False | _ => True end) -> names_in x = [].
Proof.
  induction x as [|e x IH]; intro H; [reflexivity|]. cbn [names_in flat_map]. fold (names_in x). rewrite IH by (intros e' I'; apply H; cbn; auto). specialize (H e (or_introl eq_refl)).
  destruct e; try reflexivity. destruct H.
Qed.

Lemma step_names s o : pb_broadcast s = None ->
  let s' := fst (ustep s o) in pb_broadcast s' = None /\
  ((names_in (snd (ustep s o)) = [] /\ forall k, next_id s' k = next_id s k) \/
   exists k, names_in (snd (ustep s o)) = [track_name k (next_id s k)] /\ next_id s' k = (next_id s k + 1)%N /\
     forall k', k' <> k -> next_id s' k' = next_id s k').
Proof.
  intro Bn. cbv zeta.
  assert (G : forall s s', names_in (gone s s') = []) by (intros s1 s2; apply names_plain; intros e H; apply In_gone in H; destruct H as (b & -> & _); exact I).
  assert (Pq : forall k oe b, names_in (snd (publish_opt k oe b)) = []).
  { intros k oe b. apply names_plain. intros e H. apply publish_plain in H. destruct e; auto. }
  assert (Ap : forall x y, names_in (x ++ y) = names_in x ++ names_in y) by (intros; apply flat_map_app).
  unfold ustep. destruct (pb_dead s); [split; [exact Bn|left; split; [reflexivity|reflexivity]]|].
  destruct o as [p|k ok|k|k|ok|k|k].
  - split; [exact Bn|]. left. split; [reflexivity|]. intros []; reflexivity.
  - destruct ok; [|split; [exact Bn|left; split; reflexivity]]. rewrite Bn. cbv zeta. cbn [fst snd app]. split; [destruct k; reflexivity|].
    right. exists k. change (names_in (XTrack ?k ?n :: ?l)) with (n :: names_in l).
    split; [|split; [destruct k; reflexivity|intros k' N; destruct k, k'; try reflexivity; congruence]].
    rewrite G. destruct k; reflexivity.
  - destruct (enc_of s k); (split; [exact Bn|left; split; reflexivity]).
  - cbn [fst snd]. split; [destruct k; exact Bn|]. left. rewrite G. split; [reflexivity|]. intros []; destruct k; reflexivity.
  - destruct (pb_connect s) as [p|]; [|split; [exact Bn|left; split; reflexivity]]. destruct ok; [|split; [exact Bn|left; split; [reflexivity|intros []; reflexivity]]].
    destruct (strip_slash p) as [q|]; [|split; [exact Bn|left; split; [reflexivity|intros []; reflexivity]]].
    cbv zeta. cbn [pb_video pb_audio pb_broadcast pb_audio_id pb_video_id pb_count pb_dead].
    pose proof (Pq Video (pb_video s) (pb_count s)) as PV. pose proof (Pq Audio (pb_audio s) (pb_count s)) as PA.
    destruct (publish_opt Video (pb_video s) (pb_count s)) as [v xv]. destruct (publish_opt Audio (pb_audio s) (pb_count s)) as [a xa]. cbn [fst snd] in *.
    split; [exact Bn|]. left. split; [|intros []; reflexivity]. change (names_in (?e :: ?l)) with (names_in l). rewrite !Ap, PV, PA, G.
    destruct (held _ (pb_count s)); reflexivity.
  - destruct (enc_of s k); cbn [fst snd]; (split; [destruct k; exact Bn|left; split; [reflexivity|intros []; destruct k; reflexivity]]).
  - destruct (enc_of s k) as [e|]; [|split; [exact Bn|left; split; reflexivity]]. destruct (en_ready e); [|split; [exact Bn|left; split; reflexivity]].
    cbv zeta. destruct (en_saved e) as [b|]; cbn [publish_to en_ready fst snd]; (split; [destruct k; exact Bn|left; split; [reflexivity|intros []; destruct k; reflexivity]]).
Qed.

Lemma nodup_snoc {A} (l : list A) x : NoDup l -> ~ In x l -> NoDup (l ++ [x]).
Proof. intros N H. rewrite <- (rev_involutive (l ++ [x])), rev_app_distr. apply NoDup_rev. constructor; [rewrite <- in_rev; exact H|apply NoDup_rev; exact N]. Qed.
Theorem names_distinct ops : NoDup (names (snd (urun pub_new ops))).
Proof.
  cut (pb_broadcast (fst (urun pub_new ops)) = None /\ NoDup (names (snd (urun pub_new ops))) /\
       forall n, In n (names (snd (urun pub_new ops))) -> exists k id, n = track_name k id /\ (id < next_id (fst (urun pub_new ops)) k)%N); [tauto|].
  induction ops as [|o ops IH] using rev_ind; [cbn; repeat split; [constructor|intros n []]|].
  rewrite urun_snoc. cbn [fst snd]. destruct (urun pub_new ops) as [s tr]. cbn [fst snd] in *. destruct IH as (Bn & Nd & Lt).
  destruct (step_names s o Bn) as [Bn' [[Nn Id]|(k & Nn & Id & Io)]]; (split; [exact Bn'|]); rewrite names_snoc; cbn [snd]; rewrite Nn.
  - rewrite app_nil_r. split; [exact Nd|]. intros n H. destruct (Lt n H) as (k & id & -> & L). exists k, id. split; [reflexivity|]. specialize (Id k). rewrite <- Id in L. exact L.
  - split.
    + apply nodup_snoc; [exact Nd|]. intro H. destruct (Lt _ H) as (k' & id & E & L). apply track_name_inj in E. destruct E as [<- <-]. lia.
    + intros n H. apply in_app_iff in H. destruct H as [H|[<-|[]]].
      * destruct (Lt n H) as (k' & id & -> & L). exists k', id. split; [reflexivity|].
        destruct k, k'; try (rewrite Id; lia); rewrite Io by discriminate; exact L.
      * exists k, (next_id s k). split; [reflexivity|]. rewrite Id. lia.
Qed.
