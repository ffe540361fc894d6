(** C88-C91: what the web player downloads and plays. *)
From Coq Require Import NArith ZArith List Bool Lia.
From Coq Require Import Init.Byte Strings.Byte.
From Verif.Model Require Import Base Map Player.
From Verif.Spec Require Import PlayerSpec.
From Verif.Proofs Require Import PlayerP.
Import ListNotations.

(** For the examples a configuration is a number and the browser decodes all but 9. *)
Definition plays (c : N) : bool := negb (c =? 9)%N.
Definition room_a : bytes := ["/"; "a"]%byte.
Definition room_b : bytes := ["/"; "b"]%byte.
Definition hd : rendition N := Rendition ["v"; "0"]%byte 1 1.
Definition sd : rendition N := Rendition ["v"; "1"]%byte 1 2.
Definition opus : rendition N := Rendition ["a"; "0"]%byte 2 3.
Definition evening : list (wop N) :=
  [WCanvas true; WWorklet true; WConnect (Some room_a); WSession true; WCatalog (Newer (Catalog [hd; sd] [opus]));
   WFrame Video; WFrame Audio; WMuted true; WCatalog (Newer (Catalog [sd] [opus])); WFrame Video; WVisible false;
   WMuted false; WVisible true; WFrame Video; WFrame Audio].
Example evening_trace : map snd (snd (wrun plays watch_new evening)) =
  [[]; []; [EStatus Connecting]; [EConsume 0 ["a"%byte]; EStatus Connected];
   [EStatus Live; ESub Audio (Sub 0 opus); ESub Video (Sub 0 hd)];
   [EPlay Video (Sub 0 hd)]; [EPlay Audio (Sub 0 opus)]; [EUnsub Audio];
   [EStatus Live; EUnsub Video; ESub Video (Sub 0 sd)]; [EPlay Video (Sub 0 sd)]; [EUnsub Video];
   [ESub Audio (Sub 0 opus)]; [ESub Video (Sub 0 sd)]; [EPlay Video (Sub 0 sd)]; [EPlay Audio (Sub 0 opus)]].
Proof. reflexivity. Qed.
Definition panickedb (tr : list (wop N * list (effect N))) : bool :=
  existsb (fun e => match e with EPanic => true | _ => false end) (effects tr).
Lemma calm tr : panickedb tr = false -> ~ panicked tr.
Proof.
  intros H P. unfold panickedb in H. assert (T : existsb (fun e => match e with EPanic => true | _ => false end) (effects tr) = true).
  { apply existsb_exists. exists (EPanic (C:=N)). auto. } congruence.
Qed.
Ltac nodes := apply calm; vm_compute; reflexivity.
Example evening_calm : ~ panicked (snd (wrun plays watch_new evening)).
Proof. nodes. Qed.

(** ** C88: a muted player downloads no audio and a hidden one no video *)
Theorem C88_download : forall C (builds : C -> bool) ops s tr k, wrun builds watch_new ops = (s, tr) -> ~ panicked tr ->
  subscribed k tr <> None -> enabled k tr = true.
Proof. intros C builds. exact (only_enabled builds). Qed.
Print Assumptions C88_download.

(** No other subscription is left behind: all but that one were dropped. *)
Theorem C88_single : forall C (builds : C -> bool) ops s tr k, wrun builds watch_new ops = (s, tr) -> ~ panicked tr ->
  (0 <= held k tr <= if enabled k tr then 1 else 0)%Z.
Proof. intros C builds. exact (held_one builds). Qed.
Print Assumptions C88_single.

(** Nothing is played but frames of the subscription held. *)
Theorem C88_play : forall C (builds : C -> bool) ops s tr k o t, wrun builds watch_new ops = (s, tr) -> ~ panicked tr ->
  In (EPlay k t) (snd (wstep builds s o)) -> subscribed k tr = Some t.
Proof. intros C builds. exact (plays_subscribed builds). Qed.
Print Assumptions C88_play.

Example C88_meets_held : let tr := snd (wrun plays watch_new evening) in held Audio tr = 1%Z /\ held Video tr = 1%Z /\ held Audio (firstn 8 tr) = 0%Z.
Proof. vm_compute. repeat split. Qed.
Example C88_meets : let tr := snd (wrun plays watch_new evening) in
  subscribed Audio tr = Some (Sub 0 opus) /\ enabled Audio tr = true /\ subscribed Video tr = Some (Sub 0 sd) /\
  (let tr := firstn 8 tr in subscribed Audio tr = None /\ enabled Audio tr = false /\ subscribed Video tr = Some (Sub 0 hd)).
Proof. vm_compute. repeat split. Qed.

(** ** C89: the first track of the newest catalog is played, as that catalog describes it *)
(** The track played is always the one listed first in the newest catalog. *)
Theorem C89_track : forall C (builds : C -> bool) ops s tr k t, wrun builds watch_new ops = (s, tr) -> ~ panicked tr ->
  subscribed k tr = Some t ->
  exists b c r, newest tr = Some (b, c) /\ first k c = Some r /\ tracks_equal (sb_info t) r.
Proof. intros C builds. exact (newest_track builds). Qed.
Print Assumptions C89_track.

(** If every first entry can be decoded, a track is played exactly when that kind is enabled, the newest catalog
    lists one, and it did not end or fail since the last catalog or command. *)
Theorem C89_exact : forall C (builds : C -> bool) ops s tr k, wrun builds watch_new ops = (s, tr) -> ~ panicked tr ->
  decodable builds k tr ->
  (subscribed k tr <> None <-> enabled k tr = true /\ finished k tr = false /\
     exists b c r, newest tr = Some (b, c) /\ first k c = Some r).
Proof. intros C builds. exact (plays_exact builds). Qed.
Print Assumptions C89_exact.

(** Every decoded frame of the subscription held is played. *)
Theorem C89_frame : forall C (builds : C -> bool) ops s tr k t, wrun builds watch_new ops = (s, tr) -> ~ panicked tr ->
  subscribed k tr = Some t -> snd (wstep builds s (WFrame k)) = [EPlay k t].
Proof. intros C builds. exact (frame_played builds). Qed.
Print Assumptions C89_frame.

(** It is the broadcast and the description of the newest catalog if no two catalogs list the same track name and
    priority for different broadcasts or descriptions. *)
Theorem C89_source_partial : forall C (builds : C -> bool) ops s tr k t, wrun builds watch_new ops = (s, tr) -> ~ panicked tr ->
  told_apart k tr -> subscribed k tr = Some t ->
  exists c, newest tr = Some (sb_broadcast t, c) /\ first k c = Some (sb_info t).
Proof. intros C builds. exact (newest_source builds). Qed.
Print Assumptions C89_source_partial.

Example C89_meets : let tr := snd (wrun plays watch_new evening) in
  decodable plays Video tr /\ told_apart Video tr /\ newest tr = Some (0%nat, Catalog [sd] [opus]).
Proof.
  assert (R : received (snd (wrun plays watch_new evening)) = [(0%nat, Catalog [sd] [opus]); (0%nat, Catalog [hd; sd] [opus])]) by reflexivity.
  cbv zeta. unfold decodable, told_apart. rewrite R. split; [|split; [|reflexivity]].
  - intros b c r [H|[H|[]]]; injection H as <- <-; cbn; intro F; injection F as <-; reflexivity.
  - intros b c r b' c' r' [H|[H|[]]] [H'|[H'|[]]]; injection H as <- <-; injection H' as <- <-; cbn;
      intros F F'; injection F as <-; injection F' as <-; intros [N _]; try (split; reflexivity); discriminate N.
Qed.

(** After joining another broadcast, the old one is still played if its track has the same name. *)
Theorem C89_broadcast_refuted : exists (ops : list (wop N)) s tr t b c, wrun plays watch_new ops = (s, tr) /\ ~ panicked tr /\
  subscribed Video tr = Some t /\ newest tr = Some (b, c) /\ first Video c = Some (sb_info t) /\ sb_broadcast t <> b.
Proof.
  exists [WCanvas true; WConnect (Some room_a); WSession true; WCatalog (Newer (Catalog [hd] []));
          WConnect (Some room_b); WSession true; WCatalog (Newer (Catalog [hd] []))].
  do 2 eexists. exists (Sub 0 hd), 1%nat, (Catalog [hd] []). split; [apply surjective_pairing|]. split; [nodes|].
  vm_compute. repeat split. discriminate.
Qed.
Print Assumptions C89_broadcast_refuted.

(** A new description of the same track is not taken up. *)
Theorem C89_config_refuted : exists (ops : list (wop N)) s tr t b c r, wrun plays watch_new ops = (s, tr) /\ ~ panicked tr /\
  subscribed Video tr = Some t /\ newest tr = Some (b, c) /\ first Video c = Some r /\ sb_info t <> r.
Proof.
  exists [WCanvas true; WConnect (Some room_a); WSession true; WCatalog (Newer (Catalog [hd] []));
          WCatalog (Newer (Catalog [Rendition ["v"; "0"]%byte 1 5] []))].
  do 2 eexists. exists (Sub 0 hd), 0%nat. eexists. eexists. split; [apply surjective_pairing|]. split; [nodes|].
  vm_compute. repeat split. discriminate.
Qed.
Print Assumptions C89_config_refuted.

(** ** C90: the player is where the page last asked it to be *)
(** A broadcast is joined only as the answer to the last URL asked for. *)
Theorem C90_join : forall C (builds : C -> bool) ops s tr o b p, wrun builds watch_new ops = (s, tr) -> ~ panicked tr ->
  In (EConsume b p) (snd (wstep builds s o)) -> asked tr = Some ("/"%byte :: p) /\ o = WSession true.
Proof. intros C builds. exact (joins_asked builds). Qed.
Print Assumptions C90_join.

(** And it is joined as soon as the session is there. *)
Theorem C90_joins : forall C (builds : C -> bool) ops s tr p, wrun builds watch_new ops = (s, tr) -> ~ panicked tr ->
  asked tr = Some ("/"%byte :: p) ->
  exists b, snd (wstep builds s (WSession true)) = [EConsume b p; EStatus Connected].
Proof. intros C builds. exact (session_joins builds). Qed.
Print Assumptions C90_joins.

Example C90_meets : let tr := snd (wrun plays watch_new [WConnect (Some room_a); WConnect (Some room_b)]) in
  ~ panicked tr /\ asked tr = Some ("/"%byte :: ["b"%byte]).
Proof. split; [nodes|reflexivity]. Qed.

(** Leaving does not leave: the page is told it is disconnected, and the broadcast goes on playing and being
    reported as live, for as long as the page does nothing else. *)
Definition left_room : list (wop N) :=
  [WCanvas true; WConnect (Some room_a); WSession true; WCatalog (Newer (Catalog [hd] [])); WConnect None].
Theorem C90_leave_refuted : exists s tr, wrun plays watch_new left_room = (s, tr) /\ ~ panicked tr /\ asked tr = None /\
  subscribed Video tr = Some (Sub 0 hd) /\
  (forall n, let s := fst (wrun plays s (repeat (WFrame Video) n)) in
     snd (wstep plays s (WFrame Video)) = [EPlay Video (Sub 0 hd)] /\
     snd (wstep plays s (WCatalog (Newer (Catalog [hd] [])))) = [EStatus Live]).
Proof.
  do 2 eexists. split; [apply surjective_pairing|]. split; [nodes|]. split; [reflexivity|]. split; [reflexivity|].
  intro n. cbv zeta. set (s := fst (wrun plays watch_new left_room)).
  assert (E : fst (wrun plays s (repeat (WFrame Video) n)) = s).
  { induction n as [|n IH]; [reflexivity|]. cbn [repeat wrun].
    change (wstep plays s (WFrame Video)) with (s, [EPlay Video (Sub 0 hd)]). cbn iota beta.
    destruct (wrun plays s (repeat (WFrame Video) n)) as [s1 tr1]. exact IH. }
  fold s. rewrite E. split; reflexivity.
Qed.
Print Assumptions C90_leave_refuted.

(** A broken catalog is reported as an error, and playback of what was there goes on. *)
Theorem C90_broken_refuted : exists (ops : list (wop N)) s tr x, wrun plays watch_new ops = (s, tr) /\ ~ panicked tr /\
  last tr (WConnect None, []) = (WCatalog Broken, x) /\ In (EStatus Failure) x /\ subscribed Video tr = Some (Sub 0 hd).
Proof.
  exists [WCanvas true; WConnect (Some room_a); WSession true; WCatalog (Newer (Catalog [hd] [])); WCatalog Broken].
  do 2 eexists. eexists. split; [apply surjective_pairing|]. split; [nodes|]. split; [reflexivity|]. split; [left; reflexivity|reflexivity].
Qed.
Print Assumptions C90_broken_refuted.

(** ** C91: whatever URL is given, the page is told whether it worked *)
(** The player panics exactly when the attempt for a URL whose path has no leading slash ends, well or not. *)
Theorem C91_exact : forall C (builds : C -> bool) ops s tr o, wrun builds watch_new ops = (s, tr) -> ~ panicked tr ->
  (In EPanic (snd (wstep builds s o)) <->
   (exists ok, o = WSession ok) /\ exists p, asked tr = Some p /\ forall q, p <> "/"%byte :: q).
Proof. intros C builds. exact (panic_exact builds). Qed.
Print Assumptions C91_exact.

Theorem C91_slash_partial : forall C (builds : C -> bool) ops,
  (forall p, In (WConnect (Some p)) ops -> exists q, p = "/"%byte :: q) -> ~ panicked (snd (wrun builds watch_new ops)).
Proof. intros C builds. exact (no_panic builds). Qed.
Print Assumptions C91_slash_partial.
Example C91_meets : forall p, In (WConnect (Some p)) evening -> exists q, p = "/"%byte :: q.
Proof. intros p H. unfold evening in H. repeat (destruct H as [H|H]; [first [discriminate|injection H as <-; eexists; reflexivity]|]). destruct H. Qed.

(** Unless it panics, the status is always that of the last thing that happened. *)
Theorem C91_status_partial : forall C (builds : C -> bool) ops s tr, wrun builds watch_new ops = (s, tr) -> ~ panicked tr ->
  shown tr = due tr.
Proof. intros C builds. exact (status_due builds). Qed.
Print Assumptions C91_status_partial.
Example C91_status_example : shown (snd (wrun plays watch_new evening)) <> None.
Proof. vm_compute. discriminate. Qed.

(** [data:x] and [moql://host] are such URLs: instead of the error the page gets nothing any more. *)
Theorem C91_url_refuted : exists (ops : list (wop N)), panicked (snd (wrun plays watch_new ops)) /\
  forall more o x, In (o, x) (skipn (length ops) (snd (wrun plays watch_new (ops ++ more)))) -> x = [EBad].
Proof.
  exists [WConnect (Some ["x"%byte]); WSession false]. split; [vm_compute; auto|].
  intros more o x. rewrite wrun_app. cbn [fst snd]. rewrite skipn_app. intro H. apply in_app_or in H. destruct H as [H|H].
  - vm_compute in H. destruct H.
  - change (skipn (_ - _) ?l) with l in H.
    set (s := fst (wrun plays watch_new [WConnect (Some ["x"%byte]); WSession false])) in H.
    assert (D : forall more s, w_dead s = true -> forall o x, In (o, x) (snd (wrun plays s more)) -> x = [EBad]).
    { clear. induction more as [|o more IH]; intros s D o' x; cbn [wrun]; [intros []|]. unfold wstep at 1. rewrite D.
      specialize (IH s D). destruct (wrun plays s more) as [s1 tr1]. cbn in *. intros [E|I]; [congruence|eauto]. }
    eapply D; [|exact H]. reflexivity.
Qed.
Print Assumptions C91_url_refuted.
