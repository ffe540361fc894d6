(** What makes the reader of catalogs and feedback panic. *)
From Coq Require Import NArith Arith.
From Coq Require Import Strings.String.
From Coq Require Import List Lia Bool.
From Coq Require Import Init.Byte Strings.Byte.
From Verif.Model Require Import Base Map Text Codec Json Native Catalog CatalogJson.
From Verif.Spec Require Import CodingSpec CodecSpec NativeSpec JsonSpec CatalogJsonSpec.
From Verif.Proofs Require Import BaseP MapP TextP CodecAv1P NativeP JsonP CatalogJsonP.
Import ListNotations.
Open Scope N_scope.
Local Notation length := List.length.

Definition bad (v : json) : Prop := exists raw s, within_json (JStr raw) v /\ text_of raw s /\ h264_cut s.
Definition careful {A} (f : json -> got A) : Prop := forall v, wf v -> f v = Crash -> bad v.

Lemma gbind_crash {A B} (x : got A) (f : A -> got B) : gbind x f = Crash <-> x = Crash \/ exists a, x = Got a /\ f a = Crash.
Proof.
  destruct x as [a| |]; cbn.
  - split; [intros H; right; exists a; auto|]. intros [H|(a' & [= <-] & H)]; [discriminate|exact H].
  - split; [discriminate|]. intros [H|(a' & H & _)]; discriminate.
  - split; auto.
Qed.
Lemma gmap_crash {A B} (f : A -> B) (x : got A) : gmap f x = Crash -> x = Crash.
Proof. unfold gmap. rewrite gbind_crash. intros [H|(a & _ & H)]; [exact H|discriminate]. Qed.
Lemma of_option_crash {A} (x : option A) : of_option x <> Crash.
Proof. destruct x; discriminate. Qed.
Lemma within_trans x v w : within_json x v -> within_json v w -> within_json x w.
Proof. intros H G. induction G; [exact H|econstructor; eassumption|econstructor; eassumption]. Qed.
Lemma bad_sub x v : within_json x v -> bad x -> bad v.
Proof. intros H (raw & s & A & B). exists raw, s. split; [eapply within_trans; eassumption|exact B]. Qed.
Lemma holds_within names v k x : holds names v k x -> within_json x v.
Proof.
  destruct v as [|b|t|r|vs|es]; cbn; try contradiction.
  - intros (i & _ & H). econstructor; [eapply nth_error_In; exact H|constructor].
  - intros (raw & H & _). econstructor; [exact H|constructor].
Qed.

Lemma walk_crash fields es : forall seen, walk fields seen es = Crash -> exists k f x, In (k, f) fields /\ In (Some k, x) es /\ f x = Crash.
Proof.
  induction es as [|[[k|] v] es IH]; intros seen H; cbn in H; try discriminate.
  destruct (known k fields) as [f|] eqn:K.
  - destruct (existsb (str_eqb k) seen); [discriminate|]. apply gbind_crash in H. destruct H as [H|(a & _ & H)].
    + exists k, f, v. split; [apply known_in; exact K|]. split; [left; reflexivity|exact H].
    + apply gbind_crash in H. destruct H as [H|(l & _ & H)]; [|discriminate]. destruct (IH _ H) as (k' & f' & x & A & B & C). exists k', f', x. cbn. auto.
  - destruct (IH _ H) as (k' & f' & x & A & B & C). exists k', f', x. cbn. auto.
Qed.
Lemma struct_crash fields least v : (forall k f, In (k, f) fields -> careful f) -> wf v -> struct fields least v = Crash -> bad v.
Proof.
  intros C W H. unfold struct, struct_members in H. destruct v as [|b|t|r|vs|es]; try discriminate; apply walk_crash in H; destruct H as (k & f & x & A & B & D).
  - apply in_app_or in B. destruct B as [B|B]; [|destruct (_ || _); [destruct B as [B|[]]; discriminate|destruct B]]. apply in_combine_r in B.
    inversion W as [| | | |? F|]; subst. rewrite Forall_forall in F. eapply bad_sub; [econstructor; [exact B|constructor]|]. apply (C _ _ A); auto.
  - apply in_map_iff in B. destruct B as ([raw y] & E & B). injection E as _ <-. cbn in D.
    inversion W as [| | | | |? F]; subst. rewrite Forall_forall in F. eapply bad_sub; [econstructor; [exact B|constructor]|]. apply (C _ _ A); [apply (F _ B)|exact D].
Qed.
Lemma careful_fld {A} (f : json -> got A) : careful f -> careful (fun v => gmap (fun _ => tt) (f v)).
Proof. intros C v W H. cbn in H. apply gmap_crash in H. auto. Qed.
Lemma careful_null {A} (f : json -> got A) : careful f -> careful (nullable f).
Proof. intros C v W H. unfold nullable in H. destruct v; try discriminate; apply gmap_crash in H; auto. Qed.
Lemma need_crash {A} names v l k (f : json -> got A) : wf v -> careful f -> (forall x, get k l = Some x <-> holds names v k x) -> need l k f = Crash -> bad v.
Proof.
  intros W C G H. unfold need in H. destruct (get k l) as [x|]; [|discriminate]. specialize (G x). assert (Hx := proj1 G eq_refl).
  eapply bad_sub; [eapply holds_within; exact Hx|]. apply C; [eapply holds_wf; eassumption|exact H].
Qed.
Lemma default_crash {A} names v l k (f : json -> got A) d : wf v -> careful f -> (forall x, get k l = Some x <-> holds names v k x) -> default l k f d = Crash -> bad v.
Proof. intros W C G H. eapply need_crash; try eassumption. unfold need, default in *. destruct (get k l); [exact H|discriminate]. Qed.
Lemma opt_crash {A} names v l k (f : json -> got A) : wf v -> careful f -> (forall x, get k l = Some x <-> holds names v k x) -> opt l k f = Crash -> bad v.
Proof. intros W C G H. eapply default_crash; [exact W|exact (careful_null _ C)|exact G|exact H]. Qed.

Lemma careful_string : careful read_string.
Proof. intros v W H. destruct v; cbn in H; try discriminate. destruct (of_option_crash _ H). Qed.
Lemma careful_uint max : careful (read_uint max).
Proof. intros v W H. destruct v; cbn in H; try discriminate. destruct (of_option_crash _ H). Qed.
Lemma careful_bool : careful read_bool.
Proof. intros v W H. destruct v; discriminate. Qed.
Lemma string_crash v : read_string v <> Crash.
Proof. destruct v; cbn; try discriminate. apply of_option_crash. Qed.
Lemma careful_hex : careful read_hex.
Proof. intros v W H. apply gbind_crash in H. destruct H as [H|(s & _ & H)]; [destruct (string_crash _ H)|destruct (of_option_crash _ H)]. Qed.
Lemma careful_video u : careful (read_video_codec u).
Proof.
  intros v W H. apply gbind_crash in H. destruct H as [H|(s & S & H)]; [destruct (string_crash _ H)|]. apply reads_string in S; [|exact W].
  destruct S as (raw & -> & T). exists raw, s. split; [constructor|]. split; [exact T|]. apply (video_panics u); [apply T|]. destruct (parse_video u s); cbn in H; try discriminate H. reflexivity.
Qed.
Lemma careful_audio : careful read_audio_codec.
Proof.
  intros v W H. apply gbind_crash in H. destruct H as [H|(s & S & H)]; [destruct (string_crash _ H)|]. pose proof (audio_not_panics s).
  destruct (parse_audio s); cbn in H; congruence.
Qed.
Lemma careful_list {A} (f : json -> got A) : careful f -> careful (read_list f).
Proof.
  intros C v W H. destruct v as [|b|t|raw|vs|es]; try discriminate. cbn in H. inversion W as [| | | |? F|]; subst.
  assert (E : exists x, In x vs /\ wf x /\ f x = Crash).
  { clear W. induction F as [|x vs Wx F IH]; cbn in H; [discriminate|]. apply gbind_crash in H. destruct H as [H|(a & _ & H)]; [exists x; cbn; auto|].
    apply gbind_crash in H. destruct H as [H|(l & _ & H)]; [|discriminate]. destruct (IH H) as (y & I & R). exists y. cbn. auto. }
  destruct E as (x & I & Wx & E). eapply bad_sub; [econstructor; [exact I|constructor]|]. apply C; assumption.
Qed.
Lemma careful_map {A} (f : json -> got A) : careful f -> careful (read_map f).
Proof.
  intros C v W H. destruct v as [|b|t|raw|vs|es]; try discriminate. cbn in H. inversion W as [| | | | |? F]; subst.
  assert (E : exists e, In e es /\ wf (snd e) /\ f (snd e) = Crash).
  { clear W. revert H. generalize (@nil (N * A)). induction F as [|[r x] es [_ Wx] F IH]; intros m H; cbn in H; [discriminate|].
    apply gbind_crash in H. destruct H as [H|(k & _ & H)]; [destruct (of_option_crash _ H)|].
    apply gbind_crash in H. destruct H as [H|(a & _ & H)]; [exists (r, x); cbn; auto|]. destruct (IH _ H) as (y & I & R). exists y. cbn. auto. }
  destruct E as ([r x] & I & Wx & E). eapply bad_sub; [econstructor; [exact I|constructor]|]. apply C; assumption.
Qed.
Create HintDb careful.
#[export] Hint Resolve careful_string careful_uint careful_bool careful_hex careful_video careful_audio careful_list careful_map careful_null : careful.

Ltac careful_struct :=
  let v := fresh "v" in let W := fresh "W" in let H := fresh "H" in
  intros v W H; apply gbind_crash in H;
  match type of H with struct ?fs ?n v = Crash \/ _ =>
    let ND := fresh "ND" in assert (ND : NoDup (map fst fs)) by nodup;
    destruct H as [H|H];
    [ refine (struct_crash _ _ _ _ W H); intros ? ? I; cbn [In fld] in I;
      repeat (destruct I as [I|I]; [injection I as <- <-; apply careful_fld; solve [eauto with careful]|]); destruct I
    | let l := fresh "l" in let S := fresh "S" in let G := fresh "G" in
      destruct H as (l & S & H); destruct (struct_got fs ND n v l W S) as [_ G];
      repeat (apply gbind_crash in H; destruct H as [H|(? & _ & H)];
        [first [ eapply need_crash; [exact W| | |exact H]; [solve [eauto with careful]|intros ?; apply G; inb]
               | eapply opt_crash; [exact W| | |exact H]; [solve [eauto with careful]|intros ?; apply G; inb]
               | eapply default_crash; [exact W| | |exact H]; [solve [eauto with careful]|intros ?; apply G; inb] ] | ]);
      discriminate H ]
  end.

Lemma careful_track : careful read_track.
Proof. unfold read_track. careful_struct. Qed.
#[export] Hint Resolve careful_track : careful.
Lemma careful_codecs {C} (f : json -> got C) : careful f -> careful (read_codecs f).
Proof. intros X. unfold read_codecs. careful_struct. Qed.
#[export] Hint Resolve careful_codecs : careful.
Lemma careful_capabilities u : careful (read_capabilities u).
Proof. unfold read_capabilities. careful_struct. Qed.
#[export] Hint Resolve careful_capabilities : careful.
Lemma careful_feedback u : careful (read_feedback u).
Proof. unfold read_feedback. careful_struct. Qed.

Section Floats.
Context {F64 F32 : Type} (f64_of : bytes -> option F64) (f32_of : bytes -> option F32) (f32_0 f32_1 : F32) (u : unicode).
Lemma careful_f64 : careful (read_f64 f64_of).
Proof. intros v W H. destruct v; cbn in H; try discriminate. destruct (of_option_crash _ H). Qed.
Lemma careful_f32 : careful (read_f32 f32_of).
Proof. intros v W H. destruct v; cbn in H; try discriminate. destruct (of_option_crash _ H). Qed.
Hint Resolve careful_f64 careful_f32 : careful.
Lemma careful_video_config : careful (read_video_config f64_of u).
Proof. unfold read_video_config. careful_struct. Qed.
Hint Resolve careful_video_config : careful.
Lemma careful_video_info : careful (read_video f64_of u).
Proof. unfold read_video. careful_struct. Qed.
Lemma careful_audio_config : careful read_audio_config.
Proof. unfold read_audio_config. careful_struct. Qed.
Hint Resolve careful_audio_config : careful.
Lemma careful_audio_info : careful read_audio.
Proof. unfold read_audio. careful_struct. Qed.
Lemma careful_position : careful (read_position f32_of f32_0 f32_1).
Proof. unfold read_position. careful_struct. Qed.
Hint Resolve careful_position careful_video_info careful_audio_info : careful.
Lemma careful_location : careful (read_location f32_of f32_0 f32_1).
Proof. unfold read_location. careful_struct. Qed.
Hint Resolve careful_location : careful.
Lemma careful_catalog : careful (read_catalog f64_of f32_of f32_0 f32_1 u).
Proof. unfold read_catalog. careful_struct. Qed.
Theorem catalog_crash s : parse_catalog f64_of f32_of f32_0 f32_1 u s = Crash ->
  exists v raw t, document v s /\ within_json (JStr raw) v /\ text_of raw t /\ h264_cut t.
Proof.
  unfold parse_catalog. destruct (read_json s) as [v|] eqn:E; [|discriminate]. apply read_json_exact in E. intros H. exists v.
  assert (W : wf v) by (destruct E as (w & t & w' & _ & _ & E & _); apply (proj1 read_wf _ _ E)).
  destruct (careful_catalog v W H) as (raw & t & R). exists raw, t. split; [exact E|exact R].
Qed.
End Floats.
Theorem feedback_crash u s : parse_feedback u s = Crash ->
  exists v raw t, document v s /\ within_json (JStr raw) v /\ text_of raw t /\ h264_cut t.
Proof.
  unfold parse_feedback. destruct (read_json s) as [v|] eqn:E; [|discriminate]. apply read_json_exact in E. intros H. exists v.
  assert (W : wf v) by (destruct E as (w & t & w' & _ & _ & E & _); apply (proj1 read_wf _ _ E)).
  destruct (careful_feedback u v W H) as (raw & t & R). exists raw, t. split; [exact E|exact R].
Qed.
