(** C92-C96: what a web page publishes, and when it stops. *)
From Coq Require Import NArith List Bool Lia.
From Coq Require Import Init.Byte Strings.Byte.
From Verif.Model Require Import Base Map Text Player WebPublish.
From Verif.Spec Require Import WebPublishSpec.
From Verif.Proofs Require Import WebPublishP.
Import ListNotations.

Definition crashedb (tr : uevents) : bool := existsb (fun e => match e with XPanic => true | _ => false end) (ueffects tr).
Lemma sound tr : crashedb tr = false -> ~ crashed tr.
Proof.
  intros H P. unfold crashedb in H. assert (T : existsb (fun e => match e with XPanic => true | _ => false end) (ueffects tr) = true).
  { apply existsb_exists. exists XPanic. auto. } congruence.
Qed.
Ltac calm := apply sound; vm_compute; reflexivity.

Definition room_a : bytes := ["/"; "a"]%byte.
Definition room_b : bytes := ["/"; "b"]%byte.
(** A camera and a microphone, started before the page connects, then stopped. *)
Definition talk : list uop :=
  [UInit Video true; UInit Audio true; UFrame Video; UReady Video; UConnect (Some room_a); USession true; UFrame Audio;
   UEncoded Video; UReady Audio; UEncoded Audio; UInit Video true; UReady Video; UEncoded Video; UClose Video; UEncoded Audio; UClose Audio].
Definition vid (n : byte) : bytes := ["v"; "i"; "d"; "e"; "o"; "_"; n]%byte.
Definition aud (n : byte) : bytes := ["a"; "u"; "d"; "i"; "o"; "_"; n]%byte.
Example talk_trace : map snd (snd (urun pub_new talk)) =
  [[XTrack Video (vid "0")]; [XTrack Audio (aud "0")]; [XEncode Video]; []; []; [XPublish 0 ["a"; "a"]%byte; XAdd 0 Video 0]; [XEncode Audio];
   [XWrite Video [0%nat]]; []; [XAdd 0 Audio 0; XWrite Audio [0%nat]]; [XTrack Video (vid "1")]; []; [XWrite Video []]; [];
   [XWrite Audio [0%nat]]; [XGone 0]].
Proof. vm_compute. reflexivity. Qed.

(** ** C92: nothing is captured before the page connects, and nothing leaves it then *)
Definition C92_silent : Prop := forall ops s tr o k, urun pub_new ops = (s, tr) -> ~ crashed tr ->
  In (XEncode k) (snd (ustep s o)) -> published tr <> [] \/ requested tr <> None.

(** False: a frame is given to the encoder whenever the page has one. *)
Theorem C92_encoded_exact : forall ops s tr o k, urun pub_new ops = (s, tr) -> ~ crashed tr ->
  (In (XEncode k) (snd (ustep s o)) <-> o = UFrame k /\ has_encoder k tr = true).
Proof. exact encodes. Qed.
Print Assumptions C92_encoded_exact.

Theorem C92_silent_refuted : exists ops s tr o k, urun pub_new ops = (s, tr) /\ ~ crashed tr /\
  In (XEncode k) (snd (ustep s o)) /\ published tr = [] /\ requested tr = None.
Proof.
  exists [UInit Video true]. do 2 eexists. exists (UFrame Video), Video. split; [apply surjective_pairing|]. split; [calm|].
  vm_compute. auto.
Qed.
Print Assumptions C92_silent_refuted.

(** What leaves the page goes only to broadcasts it published and that did not end. *)
Theorem C92_leaves_partial : forall ops s tr o k dests b, urun pub_new ops = (s, tr) -> ~ crashed tr ->
  In (XWrite k dests) (snd (ustep s o)) -> In b dests -> In b (published tr) /\ ~ over tr b /\ has_encoder k tr = true.
Proof.
  intros ops s tr o k dests b E P H Hb. destruct (write_dests _ _ _ _ _ _ E P H) as (_ & He & D & _). destruct (D b Hb) as [D1 D2].
  split; [exact (since_published _ _ _ _ _ E P D1)|auto].
Qed.
Print Assumptions C92_leaves_partial.

Example C92_meets : let s := fst (urun pub_new (firstn 7 talk)) in let tr := snd (urun pub_new (firstn 7 talk)) in
  ~ crashed tr /\ In (XWrite Video [0%nat]) (snd (ustep s (UEncoded Video))) /\ published tr = [0%nat].
Proof. cbv zeta. split; [calm|vm_compute; auto]. Qed.

(** ** C93: a page publishes where the player of the same URL looks *)
(** The path the player asks for is the path of the URL without its first slash: C90_join, C91_exact. *)
Theorem C93_exact : forall ops s tr o b p, urun pub_new ops = (s, tr) -> ~ crashed tr ->
  In (XPublish b p) (snd (ustep s o)) -> o = USession true /\ exists q, requested tr = Some ("/"%byte :: q) /\ p = q ++ q.
Proof. exact publish_path. Qed.
Print Assumptions C93_exact.
Theorem C93_published : forall ops s tr q, urun pub_new ops = (s, tr) -> ~ crashed tr -> requested tr = Some ("/"%byte :: q) ->
  exists b, In (XPublish b (q ++ q)) (snd (ustep s (USession true))).
Proof. exact publishes. Qed.
Print Assumptions C93_published.

(** So the two never meet unless the path is empty. *)
Theorem C93_apart : forall ops s tr q, urun pub_new ops = (s, tr) -> ~ crashed tr -> requested tr = Some ("/"%byte :: q) -> q <> [] ->
  (exists b p, In (XPublish b p) (snd (ustep s (USession true)))) /\
  forall b p, In (XPublish b p) (snd (ustep s (USession true))) -> p <> q.
Proof.
  intros ops s tr q E P R Q. split.
  - destruct (publishes _ _ _ _ E P R) as [b H]. eauto.
  - intros b p H. destruct (publish_path _ _ _ _ _ _ E P H) as (_ & q' & R' & ->). rewrite R in R'. injection R' as <-.
    intro C. apply (f_equal (@length byte)) in C. rewrite app_length in C. destruct q; [congruence|cbn in C; lia].
Qed.
Print Assumptions C93_apart.
Theorem C93_found_refuted : exists ops s tr q b p, urun pub_new ops = (s, tr) /\ ~ crashed tr /\ requested tr = Some ("/"%byte :: q) /\
  In (XPublish b p) (snd (ustep s (USession true))) /\ p <> q.
Proof.
  exists [UConnect (Some room_a)]. do 2 eexists. exists ["a"%byte], 0%nat, ["a"; "a"]%byte. split; [apply surjective_pairing|].
  split; [calm|]. split; [vm_compute; reflexivity|]. split; [vm_compute; auto|discriminate].
Qed.
Print Assumptions C93_found_refuted.

Example C93_meets : let s := fst (urun pub_new (firstn 5 talk)) in let tr := snd (urun pub_new (firstn 5 talk)) in
  ~ crashed tr /\ requested tr = Some room_a /\ snd (ustep s (USession true)) = [XPublish 0 ["a"; "a"]%byte; XAdd 0 Video 0].
Proof. cbv zeta. split; [calm|vm_compute; auto]. Qed.

(** ** C94: a frame is part of the newest broadcast *)
Definition C94_reaches : Prop := forall ops s tr o k dests b, urun pub_new ops = (s, tr) -> ~ crashed tr ->
  In (XWrite k dests) (snd (ustep s o)) -> hd_error (published tr) = Some b -> In b dests.

(** It is, if the broadcast was published after the encoder was made; and no broadcast published earlier gets it. *)
Theorem C94_reaches_partial : forall ops s tr o k dests, urun pub_new ops = (s, tr) -> ~ crashed tr ->
  In (XWrite k dests) (snd (ustep s o)) ->
  (forall b, hd_error (since k tr) = Some b -> In b dests) /\ (forall b, In b dests -> In b (since k tr)).
Proof.
  intros ops s tr o k dests E P H. destruct (write_dests _ _ _ _ _ _ E P H) as (_ & _ & D & Nw). split; [exact Nw|].
  intros b Hb. exact (proj1 (D b Hb)).
Qed.
Print Assumptions C94_reaches_partial.

(** A camera started after connecting is seen by nobody: the broadcast already ended. *)
Theorem C94_reaches_refuted : exists ops s tr o k b, urun pub_new ops = (s, tr) /\ ~ crashed tr /\
  In (XWrite k []) (snd (ustep s o)) /\ hd_error (published tr) = Some b /\ over tr b.
Proof.
  exists [UConnect (Some room_a); USession true; UInit Video true; UFrame Video; UReady Video]. do 2 eexists. exists (UEncoded Video), Video, 0%nat.
  split; [apply surjective_pairing|]. split; [calm|]. vm_compute. auto.
Qed.
Print Assumptions C94_reaches_refuted.

Example C94_meets : let s := fst (urun pub_new (firstn 9 talk)) in let tr := snd (urun pub_new (firstn 9 talk)) in
  ~ crashed tr /\ In (XWrite Audio [0%nat]) (snd (ustep s (UEncoded Audio))) /\ since Audio tr = [0%nat].
Proof. cbv zeta. split; [calm|vm_compute; auto]. Qed.

(** ** C95: a page that leaves a broadcast stops publishing it *)
Definition C95_stops : Prop := forall ops s tr o k dests b, urun pub_new ops = (s, tr) -> ~ crashed tr ->
  In (XWrite k dests) (snd (ustep s o)) -> In b dests -> hd_error (published tr) = Some b.

Theorem C95_switch_refuted : exists ops s tr o k dests b b', urun pub_new ops = (s, tr) /\ ~ crashed tr /\
  In (XWrite k dests) (snd (ustep s o)) /\ In b dests /\ hd_error (published tr) = Some b' /\ b <> b'.
Proof.
  exists [UInit Video true; UReady Video; UConnect (Some room_a); USession true; UConnect None; UConnect (Some room_b); USession true].
  do 2 eexists. exists (UEncoded Video), Video, [1%nat; 0%nat], 0%nat, 1%nat.
  split; [apply surjective_pairing|]. split; [calm|].
  split; [vm_compute; auto|]. split; [vm_compute; auto|]. split; [vm_compute; reflexivity|discriminate].
Qed.
Print Assumptions C95_switch_refuted.

(** Asking to be nowhere changes nothing about what is published. *)
Theorem C95_leave_exact : forall ops s tr o, urun pub_new ops = (s, tr) -> (forall ok, o <> USession ok) ->
  snd (ustep (fst (ustep s (UConnect None))) o) = snd (ustep s o).
Proof.
  intros ops [c b a ai v vi n d] tr o _ N. unfold ustep. cbn [pb_dead]. destruct d; [reflexivity|]. cbn [fst pb_dead].
  destruct o as [p|k []|k|k|ok|k|k].
  - reflexivity.
  - destruct b as [b|]; destruct k; reflexivity.
  - reflexivity.
  - destruct k; [destruct a|destruct v]; reflexivity.
  - destruct k; reflexivity.
  - destruct (N ok eq_refl).
  - destruct k; [destruct a|destruct v]; reflexivity.
  - destruct k; [destruct a as [[i [] [sv|] l]|]|destruct v as [[i [] [sv|] l]|]]; reflexivity.
Qed.
Print Assumptions C95_leave_exact.

(** Closing both encoders ends every broadcast. *)
Theorem C95_close_partial : forall ops s tr b, urun pub_new ops = (s, tr) -> ~ crashed tr ->
  has_encoder Audio tr = false -> has_encoder Video tr = false -> In b (published tr) -> over tr b.
Proof. exact closed_over. Qed.
Print Assumptions C95_close_partial.

Example C95_meets : let s := fst (urun pub_new talk) in let tr := snd (urun pub_new talk) in
  ~ crashed tr /\ has_encoder Audio tr = false /\ has_encoder Video tr = false /\ published tr = [0%nat].
Proof. cbv zeta. split; [calm|vm_compute; auto]. Qed.

(** ** C96: no two tracks of a page have the same name *)
Theorem C96_names : forall ops, NoDup (names (snd (urun pub_new ops))).
Proof. exact names_distinct. Qed.
Print Assumptions C96_names.

Example C96_meets : names (snd (urun pub_new talk)) = [vid "0"; aud "0"; vid "1"].
Proof. vm_compute. reflexivity. Qed.
