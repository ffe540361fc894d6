(** C153-C157: the custom elements a page embeds to watch and to publish. *)
From Coq Require Import NArith ZArith Arith List Bool Lia.
From Coq Require Import Init.Byte Strings.Byte.
From Verif.Model Require Import Base Map FrameSys Player Element.
From Verif.Spec Require Import PlayerSpec ElementSpec.
From Verif.Proofs Require Import ElementP.
Import ListNotations.

(** For the examples: every configuration plays, URLs begin with a slash, "0" is zero, all other numbers are 1. *)
Definition any (c : N) : bool := true.
Definition url_of (p : bytes) : option bytes := match p with c :: _ => if Byte.eqb c "/" then Some p else None | [] => None end.
Definition number (p : bytes) : num := match p with [c] => if Byte.eqb c "0" then Fin 0 else Fin 1 | _ => NaN end.
Definition page := erun (C:=N) any url_of number number.
Definition at_rest (s : element N) : Prop := settled any url_of number number s.
Definition lobby : bytes := ["/"; "a"]%byte.
Definition feed : catalog N := Catalog [Rendition ["v"%byte] 1 1%N] [Rendition ["s"%byte] 2 3%N].
Definition start : list (eop N) :=
  [EAttrUrl (Some lobby); EInit; EWork; EModule 0; EWork; EWork; ENet (WSession true); ENet (WCatalog (Newer feed))].
Definition calmb (tr : list (wop N * list (effect N))) : bool :=
  negb (existsb (fun e => match e with EPanic => true | _ => false end) (effects tr)).
Lemma no_panic tr : calmb tr = true -> ~ panicked tr.
Proof.
  intros H P. unfold calmb in H. apply negb_true_iff in H.
  assert (T : existsb (fun e => match e with EPanic => true | _ => false end) (effects tr) = true).
  { apply existsb_exists. exists (EPanic (C:=N)). auto. } congruence.
Qed.
Ltac quiet := apply no_panic; vm_compute; reflexivity.

(** ** C153: the player is told what the page asks for *)
(** Once no message waits, the worker was told exactly what the page asked for last, by property or by attribute. *)
Theorem C153_told : forall C (builds : C -> bool) parse_url parse_float parse_int throws runs ops s tr,
  erun builds parse_url parse_float parse_int (element_new throws runs) ops = (s, tr) ->
  settled builds parse_url parse_float parse_int s ->
  told_url (took tr) = asked_url parse_url tr /\ told_latency (took tr) = asked_latency parse_int tr /\
  told_paused (took tr) = asked_paused tr /\ told_visible (took tr) = latest_word tr /\
  told_muted (took tr) = is_zero (asked_volume parse_float tr).
Proof. intros C builds parse_url parse_float parse_int. exact (told builds parse_url parse_float parse_int). Qed.
Print Assumptions C153_told.

(** So with the volume at zero no audio is downloaded. *)
Theorem C153_silent : forall C (builds : C -> bool) parse_url parse_float parse_int throws runs ops s tr,
  erun builds parse_url parse_float parse_int (element_new throws runs) ops = (s, tr) ->
  settled builds parse_url parse_float parse_int s -> ~ panicked (player tr) ->
  is_zero (asked_volume parse_float tr) = true -> held Audio (player tr) = 0%Z.
Proof. intros C builds parse_url parse_float parse_int. exact (muted_silent builds parse_url parse_float parse_int). Qed.
Print Assumptions C153_silent.

(** And if the last word was that it is hidden, no video. *)
Theorem C153_hidden : forall C (builds : C -> bool) parse_url parse_float parse_int throws runs ops s tr,
  erun builds parse_url parse_float parse_int (element_new throws runs) ops = (s, tr) ->
  settled builds parse_url parse_float parse_int s -> ~ panicked (player tr) ->
  latest_word tr = false -> held Video (player tr) = 0%Z.
Proof. intros C builds parse_url parse_float parse_int. exact (hidden_blank builds parse_url parse_float parse_int). Qed.
Print Assumptions C153_hidden.

(** What the worker does is what Model/Player.v does, so C88-C91 hold behind the element. *)
Theorem C153_player : forall C (builds : C -> bool) parse_url parse_float parse_int throws runs ops s tr,
  erun builds parse_url parse_float parse_int (element_new throws runs) ops = (s, tr) ->
  snd (wrun builds watch_new (map fst (player tr))) = player tr.
Proof.
  intros C builds parse_url parse_float parse_int t r ops s tr E.
  now rewrite (s_player _ _ _ _ _ _ (settings_all builds parse_url parse_float parse_int t r ops s tr E)).
Qed.
Print Assumptions C153_player.

Definition quieter : list (eop N) := start ++ [EVolume (Fin 0); EDocument false; EAttrLatency (Some ["2"%byte]); EWork; EWork; EWork].
Example C153_meets : let s := fst (page (element_new false true) quieter) in let tr := snd (page (element_new false true) quieter) in
  at_rest s /\ ~ panicked (player tr) /\ told_url (took tr) = Some lobby /\ told_muted (took tr) = true /\ told_latency (took tr) = Fin 1 /\
  latest_word tr = false /\ held Audio (player (firstn 8 tr)) = 1%Z /\ held Video (player (firstn 8 tr)) = 1%Z /\
  held Audio (player tr) = 0%Z /\ held Video (player tr) = 0%Z.
Proof. intros s tr. split; [vm_compute; reflexivity|]. split; [quiet|]. vm_compute. repeat split. Qed.

(** ** C154: what is not on the screen is not downloaded *)
(** If only the observer reports, the worker is told whether the canvas is on the screen, and if not no video is
    downloaded. *)
Theorem C154_partial : forall C (builds : C -> bool) parse_url parse_float parse_int throws runs ops s tr,
  erun builds parse_url parse_float parse_int (element_new throws runs) ops = (s, tr) ->
  settled builds parse_url parse_float parse_int s -> undisturbed tr ->
  told_visible (took tr) = on_screen tr /\ (~ panicked (player tr) -> on_screen tr = false -> held Video (player tr) = 0%Z).
Proof. intros C builds parse_url parse_float parse_int. exact (watched builds parse_url parse_float parse_int). Qed.
Print Assumptions C154_partial.

Example C154_meets : let s := fst (page (element_new false true) (start ++ [EIntersect false; EWork])) in let tr := snd (page (element_new false true) (start ++ [EIntersect false; EWork])) in
  at_rest s /\ undisturbed tr /\ on_screen tr = false /\ held Video (player (firstn 8 tr)) = 1%Z /\ held Video (player tr) = 0%Z.
Proof.
  intros s tr. split; [vm_compute; reflexivity|]. split; [|vm_compute; repeat split].
  intros e H. vm_compute in H. repeat (destruct H as [<-|H]; [exact Logic.I|]). contradiction.
Qed.

(** It is false otherwise: scrolled away, then the tab hidden and shown again.  The video is downloaded although
    nobody sees it; the other way round (tab hidden, then the page scrolls) as well. *)
Theorem C154_refuted : exists ops s tr, page (element_new false true) ops = (s, tr) /\ at_rest s /\ ~ panicked (player tr) /\
  on_screen tr = false /\ told_visible (took tr) = true /\ held Video (player tr) = 1%Z.
Proof.
  exists (start ++ [EIntersect false; EDocument false; EDocument true; EWork; EWork; EWork]).
  eexists. eexists. split; [vm_compute; reflexivity|]. split; [vm_compute; reflexivity|]. split; [quiet|]. vm_compute. repeat split.
Qed.
Print Assumptions C154_refuted.
Theorem C154_behind_refuted : exists ops s tr, page (element_new false true) ops = (s, tr) /\ at_rest s /\ ~ panicked (player tr) /\
  in_front tr = false /\ told_visible (took tr) = true /\ held Video (player tr) = 1%Z.
Proof.
  exists (start ++ [EDocument false; EIntersect true; EWork; EWork]).
  eexists. eexists. split; [vm_compute; reflexivity|]. split; [vm_compute; reflexivity|]. split; [quiet|]. vm_compute. repeat split.
Qed.
Print Assumptions C154_behind_refuted.

(** ** C155: the canvas on display is the one drawn on *)
(** If no canvas comes back after it was replaced. *)
Theorem C155_partial : forall C (builds : C -> bool) parse_url parse_float parse_int throws runs ops s tr,
  erun builds parse_url parse_float parse_int (element_new throws runs) ops = (s, tr) ->
  settled builds parse_url parse_float parse_int s -> once tr -> told_canvas (took tr) = on_display tr.
Proof. intros C builds parse_url parse_float parse_int. exact (drawn builds parse_url parse_float parse_int). Qed.
Print Assumptions C155_partial.

Example C155_meets : let s := fst (page (element_new false true) (start ++ [ESlot [None; Some 4]; EWork; ESlot [Some 7; Some 4]; EWork])) in let tr := snd (page (element_new false true) (start ++ [ESlot [None; Some 4]; EWork; ESlot [Some 7; Some 4]; EWork])) in
  at_rest s /\ once tr /\ told_canvas (took tr) = Some 7 /\ on_display (firstn 10 tr) = Some 4.
Proof.
  intros s tr. split; [vm_compute; reflexivity|]. split; [|vm_compute; repeat split]. unfold once. vm_compute.
  repeat (constructor; [cbn; intuition discriminate|]). constructor.
Qed.

(** A canvas is slotted and removed again: the fallback is displayed, but the canvas removed is drawn on. *)
Theorem C155_refuted : exists ops s tr, page (element_new false true) ops = (s, tr) /\ at_rest s /\
  on_display tr = Some 0 /\ told_canvas (took tr) = Some 4 /\ In (ESlot [], EThrew) tr.
Proof.
  exists (start ++ [ESlot [Some 4]; EWork; ESlot []; EWork]). eexists. eexists. split; [vm_compute; reflexivity|].
  vm_compute. repeat split. repeat (try (left; reflexivity); right).
Qed.
Print Assumptions C155_refuted.

(** ** C156: what is heard has the volume asked for *)
(** If the audio was set up once and no volume is infinite or no number. *)
Theorem C156_volume_partial : forall C (builds : C -> bool) parse_url parse_float parse_int (throws runs : bool) ops s tr x,
  erun builds parse_url parse_float parse_int (element_new throws runs) ops = (s, tr) -> audible parse_float tr ->
  (if throws then 0 else 1) + audios tr <= 1 -> told_worklet (took tr) = Some x -> gain_at s x = Some (asked_volume parse_float tr).
Proof. intros C builds parse_url parse_float parse_int. exact (loud builds parse_url parse_float parse_int). Qed.
Print Assumptions C156_volume_partial.

(** If the browser refused the AudioContext before the first click, or had no reason to hold it back, it runs. *)
Theorem C156_runs_partial : forall C (builds : C -> bool) parse_url parse_float parse_int throws runs ops s tr x,
  erun builds parse_url parse_float parse_int (element_new throws runs) ops = (s, tr) -> (throws = true \/ runs = true) -> permitted tr ->
  told_worklet (took tr) = Some x -> running s x = true.
Proof. intros C builds parse_url parse_float parse_int. exact (ElementP.runs builds parse_url parse_float parse_int). Qed.
Print Assumptions C156_runs_partial.

(** If it made one that waits for a click, it waits forever, whatever happens. *)
Theorem C156_never_runs : forall C (builds : C -> bool) parse_url parse_float parse_int ops s tr,
  erun builds parse_url parse_float parse_int (element_new false false) ops = (s, tr) -> running s 0 = false.
Proof. intros C builds parse_url parse_float parse_int. exact (never_runs builds parse_url parse_float parse_int). Qed.
Print Assumptions C156_never_runs.

Example C156_meets : let s := fst (page (element_new true false) [EInit; EWork; EClick false; EVolume (Fin 3); EModule 0; EWork; EWork]) in let tr := snd (page (element_new true false) [EInit; EWork; EClick false; EVolume (Fin 3); EModule 0; EWork; EWork]) in
  audible number tr /\ audios tr = 1 /\ permitted tr /\ told_worklet (took tr) = Some 0 /\ gain_at s 0 = Some (Fin 3) /\ running s 0 = true.
Proof.
  intros s tr. split; [|split; [vm_compute; reflexivity|split; [|vm_compute; repeat split]]];
    intros e H; vm_compute in H; repeat (destruct H as [<-|H]; [cbn; auto|]); contradiction.
Qed.

(** The worklets of two contexts load out of order: the player feeds the one whose volume is not set any more. *)
Theorem C156_volume_refuted : exists ops s tr, page (element_new false true) ops = (s, tr) /\ at_rest s /\ audible number tr /\
  asked_volume number tr = Fin 0 /\ exists x, told_worklet (took tr) = Some x /\ gain_at s x = Some (Fin 1).
Proof.
  exists [EInit; EWork; EAudio false true; EModule 1; EModule 0; EVolume (Fin 0); EWork; EWork; EWork].
  eexists. eexists. split; [vm_compute; reflexivity|]. split; [vm_compute; reflexivity|]. split.
  { intros e H. vm_compute in H. repeat (destruct H as [<-|H]; [cbn; auto|]). contradiction. }
  split; [vm_compute; reflexivity|]. exists 0. vm_compute. repeat split.
Qed.
Print Assumptions C156_volume_refuted.
(** The user clicked, and still nothing is heard although the audio is downloaded and fed to the worklet. *)
Theorem C156_runs_refuted : exists ops s tr, page (element_new false false) ops = (s, tr) /\ at_rest s /\ ~ panicked (player tr) /\
  clicked tr /\ held Audio (player tr) = 1%Z /\ exists x, told_worklet (took tr) = Some x /\ running s x = false.
Proof.
  exists (start ++ [EClick false; EWork]). eexists. eexists. split; [vm_compute; reflexivity|]. split; [vm_compute; reflexivity|]. split; [quiet|]. split.
  { exists false. eexists. vm_compute. repeat (try (left; reflexivity); right). }
  split; [vm_compute; reflexivity|]. exists 0. vm_compute. repeat split.
Qed.
Print Assumptions C156_runs_refuted.

(** ** C157: the attributes of the publishing element *)
(** Video is off exactly if "no-video" is there with a value that is not empty; audio likewise. *)
Theorem C157_exact : forall parse_url l, let s := fst (attr_run parse_url publisher_new l) in
  (pu_video s = false <-> exists c v, value ANoVideo l = Some (c :: v)) /\
  (pu_audio s = false <-> exists c v, value ANoAudio l = Some (c :: v)) /\ pu_device s = value ADevice l.
Proof.
  intros parse_url l. cbn. destruct (attributes parse_url l) as (V & A & D). rewrite V, A, D. repeat split.
  - destruct (value ANoVideo l) as [[|c v]|]; try discriminate. eauto.
  - intros (c & v & ->). reflexivity.
  - destruct (value ANoAudio l) as [[|c v]|]; try discriminate. eauto.
  - intros (c & v & ->). reflexivity.
Qed.
Print Assumptions C157_exact.

(** Absent means on. *)
Theorem C157_partial : forall parse_url l, let s := fst (attr_run parse_url publisher_new l) in
  (value ANoVideo l = None -> pu_video s = true) /\ (value ANoAudio l = None -> pu_audio s = true).
Proof. intros parse_url l. cbn. destruct (attributes parse_url l) as (V & A & _). rewrite V, A. split; now intros ->. Qed.
Print Assumptions C157_partial.

Example C157_meets : let l := [(ANoVideo, Some ["1"%byte]); (AUrl, Some lobby); (ANoAudio, Some ["1"%byte]); (ANoAudio, None)] in
  let (s, x) := attr_run url_of publisher_new l in pu_video s = false /\ pu_audio s = true /\ x = [Some lobby].
Proof. vm_compute. repeat split. Qed.

(** [<hang-publish no-video>] has the attribute, and publishes video. *)
Theorem C157_refuted : exists l, value ANoVideo l = Some [] /\ pu_video (fst (attr_run url_of publisher_new l)) = true.
Proof. exists [(ANoVideo, Some [])]. vm_compute. repeat split. Qed.
Print Assumptions C157_refuted.

(** No attribute but the URL is told to the worker: a device chosen, or video and audio turned off, change nothing
    there. *)
Theorem C157_posts : forall parse_url l, snd (attr_run parse_url publisher_new l) =
  snd (attr_run parse_url publisher_new (filter (fun e => attr_eqb AUrl (fst e)) l)).
Proof. exact posts_urls. Qed.
Print Assumptions C157_posts.
