(** Group transfer. *)
From Coq Require Import NArith ZArith List Lia Bool.
From Coq Require Import Init.Byte Strings.Byte.
From Coq Require Import ZifyBool ZifyNat ZifyN.
From Verif.Model Require Import Base Coding Message ErrorCode Stream Frame Transfer.
From Verif.Spec Require Import CodingSpec MessageSpec StreamSpec TransferSpec.
From Verif.Proofs Require Import BaseP CodingP MessageP StreamP.
Import ListNotations.
Open Scope N_scope.

(** ** Lists *)
Lemma prefix_nil {A} (l : list A) : prefix [] l.
Proof. exists l. reflexivity. Qed.
Lemma prefix_refl {A} (l : list A) : prefix l l.
Proof. exists []. rewrite app_nil_r. reflexivity. Qed.
Lemma prefix_trans {A} (a b c : list A) : prefix a b -> prefix b c -> prefix a c.
Proof. intros [x ->] [y ->]. exists (x ++ y). rewrite app_assoc. reflexivity. Qed.

(** A prefix of [a ++ b] is a strict prefix of [a] or [a] followed by a prefix of [b]. *)
Lemma prefix_app_cases {A} : forall (a b p : list A), prefix p (a ++ b) ->
  strict_prefix p a \/ exists q, p = a ++ q /\ prefix q b.
Proof.
  induction a as [|x a IH]; intros b p [q E].
  - right. exists p. split; [reflexivity|]. exists q. exact E.
  - destruct p as [|y p].
    + left. exists (x :: a). split; [discriminate|reflexivity].
    + cbn in E. injection E as <- E.
      destruct (IH b p (ex_intro _ q E)) as [(z & Hz & ->)|(q' & -> & Hq)].
      * left. exists z. split; auto.
      * right. exists q'. split; auto.
Qed.

Lemma prefix_length {A} (p l : list A) : prefix p l -> (length p <= length l)%nat.
Proof. intros [q ->]. rewrite app_length. lia. Qed.

Lemma prefix_app_short {A} (a b p : list A) : prefix p (a ++ b) -> (length p <= length a)%nat -> prefix p a.
Proof.
  intros H L. destruct (prefix_app_cases _ _ _ H) as [(x & _ & ->)|(q & -> & _)].
  - exists x. reflexivity.
  - rewrite app_length in L. destruct q; [rewrite app_nil_r; apply prefix_refl|cbn in L; lia].
Qed.

(** ** Wire form of frames *)
Definition hdr_of (size : N) : bytes :=
  match frame_header_encode size with Val ps => wire ps | Panic => [] end.
Fixpoint wire_frames (l : list (N * bytes)) : bytes :=
  match l with [] => [] | f :: l => hdr_of (fst f) ++ snd f ++ wire_frames l end.

(** Frames that can be on one stream: within the declared size, and all but the last complete. *)
Fixpoint shape (w : N) (l : list (N * bytes)) : Prop :=
  match l with
  | [] => True
  | f :: l' => len (snd f) <= fst f /\ fst f < 2 ^ 62 /\ fst f < 2 ^ w /\ (l' = [] \/ len (snd f) = fst f) /\ shape w l'
  end.

Lemma hdr_encode size : size < 2 ^ 62 -> exists ps, frame_header_encode size = Val ps /\ wire ps = hdr_of size.
Proof.
  intros H. destruct (rt_u64 size H) as (ps & E & _). exists ps. unfold hdr_of.
  unfold frame_header_encode. rewrite E. auto.
Qed.
Lemma hdr_decode size rest : size < 2 ^ 62 -> frame_header_decode (hdr_of size ++ rest) = DOk size rest.
Proof.
  intros H. destruct (rt_u64 size H) as (ps & E & D). unfold hdr_of, frame_header_encode. rewrite E. apply D.
Qed.
Lemma hdr_short size p : size < 2 ^ 62 -> strict_prefix p (hdr_of size) -> frame_header_decode p = DErr Short.
Proof.
  intros H. destruct (hdr_encode size H) as (ps & E & <-). intros P.
  exact (rt_good_short u62 u64_encode u64_decode good_u64 rt_u64 size ps p H E P).
Qed.
Lemma hdr_nonempty size : size < 2 ^ 62 -> hdr_of size <> [].
Proof.
  intros H E. pose proof (hdr_decode size [] H) as D. rewrite E in D. cbn in D. discriminate.
Qed.

Definition full (f : N * bytes) : Prop := len (snd f) = fst f.
Definition done (f : N * bytes) : seen_frame := (fst f, snd f, Some Finished).
Definition norm (l : list (N * frame_state)) : list seen_frame :=
  map (fun f => (fst f, concat (fs_chunks (snd f)), fs_closed (snd f))) l.

Lemma norm_app a b : norm (a ++ b) = norm a ++ norm b.
Proof. apply map_app. Qed.

Definition ending_task (e : ending) (fin : task) : task :=
  match e with Fin => fin | Reset => TFailed WebTransport | Open => TPending end.

(** Where the delivered bytes [p] stop, relative to the frames [l], after [n] whole ones. *)
Inductive stop (l : list (N * bytes)) (p : bytes) (e : ending) (n : nat)
  : task -> option outcome -> list seen_frame -> Prop :=
| stop_boundary : p = wire_frames (firstn n l) ->
    stop l p e n (ending_task e TDone) (match e with Fin => Some Finished | _ => None end) []
| stop_header f h : nth_error l n = Some f -> h <> [] -> strict_prefix h (hdr_of (fst f)) ->
    p = wire_frames (firstn n l) ++ h ->
    stop l p e n (ending_task e (TFailed (Decode Short))) None []
| stop_payload f part : nth_error l n = Some f -> prefix part (snd f) -> len part < fst f ->
    p = wire_frames (firstn n l) ++ hdr_of (fst f) ++ part ->
    stop l p e n (ending_task e (TFailed WrongSize)) None
      [(fst f, part, match e with Fin => Some (Failed WrongSize) | Reset => Some (Failed WebTransport) | Open => None end)].

Lemma wire_frames_cons f l : wire_frames (f :: l) = hdr_of (fst f) ++ snd f ++ wire_frames l.
Proof. reflexivity. Qed.

Lemma ok_rest_ne r r' : ok_rest r r' -> no_empty_piece r -> no_empty_piece r'.
Proof. intros [_ H]; exact H. Qed.

Lemma run_group_prefix w : forall l, shape w l -> forall p, prefix p (wire_frames l) ->
  forall fuel fs r, no_empty_piece r -> content r = p -> (length p < fuel)%nat ->
  exists n t closed infl frs r', run_group w fuel fs r = (t, RGroup (fs ++ frs) closed, r') /\
    Forall full (firstn n l) /\ norm frs = map done (firstn n l) ++ infl /\
    stop l p (ends r) n t closed infl.
Proof.
  assert (Boundary : forall l fuel fs r, no_empty_piece r -> content r = [] -> (0 < fuel)%nat ->
    exists n t closed infl frs r', run_group w fuel fs r = (t, RGroup (fs ++ frs) closed, r') /\
      Forall full (firstn n l) /\ norm frs = map done (firstn n l) ++ infl /\
      stop l [] (ends r) n t closed infl).
  { intros l fuel fs r NE C F. destruct fuel as [|fuel]; [lia|]. cbn [run_group].
    pose proof (reader_maybe_flat frame_header_decode r good_u64 NE) as M.
    destruct (reader_decode_maybe frame_header_decode r) as [x r1]. destruct M as (M & _).
    rewrite C in M. cbn [flat_maybe] in M. injection M as -> _.
    exists 0%nat, (ending_task (ends r) TDone), (match ends r with Fin => Some Finished | _ => None end), [], [], r1.
    rewrite app_nil_r. cbn [firstn map app norm]. split; [|split; [constructor|split; [reflexivity|]]].
    - destruct (ends r); reflexivity.
    - apply stop_boundary. reflexivity. }
  induction l as [|f l IH]; intros S p P fuel fs r NE C F.
  { assert (p = []) as -> by (destruct P as [q E]; destruct p; [reflexivity|discriminate]).
    apply Boundary; auto. }
  cbn [shape] in S. destruct S as (S1 & S2 & S3 & S4 & S5).
  destruct (list_eq_dec Byte.byte_eq_dec p []) as [->|Np]; [apply Boundary; auto|].
  cbn [wire_frames] in P. destruct fuel as [|fuel]; [lia|]. cbn [run_group].
  pose proof (reader_maybe_flat frame_header_decode r good_u64 NE) as M.
  destruct (reader_decode_maybe frame_header_decode r) as [x r1]. destruct M as (M & R1).
  assert (NE1 : no_empty_piece r1) by (eapply ok_rest_ne; eauto).
  rewrite C in M. unfold flat_maybe in M. destruct p as [|b0 p0] eqn:Ep; [congruence|]. rewrite <- Ep in *.
  unfold flat_decode in M.
  destruct (prefix_app_cases _ _ _ P) as [SP|(p1 & -> & P1)].
  { (* inside the header *)
    rewrite (hdr_short _ _ S2 SP) in M. injection M as -> M.
    exists 0%nat, (ending_task (ends r) (TFailed (Decode Short))), None, [], [], r1.
    rewrite app_nil_r. split; [|split; [constructor|split; [reflexivity|]]].
    - destruct (ends r); reflexivity.
    - apply (stop_header _ _ _ _ f p); auto. }
  rewrite hdr_decode in M by exact S2. injection M as -> M.
  pose proof (run_frame_flat w (fst f) S3 (frame_fuel r1) (fst f) 0 frame_new r1 (frame_fuel_ok r1) ltac:(lia) eq_refl) as G.
  destruct (run_frame w (frame_fuel r1) (fst f) (fst f) 0 frame_new r1) as [[t st] r2].
  destruct G as (G1 & G2 & G3). cbn [frame_new fs_chunks concat app] in G2.
  assert (E1 : ends r1 = ends r) by apply R1.
  unfold frame_got in G1. rewrite M in G1, G2. rewrite E1 in G1.
  destruct (fst f <=? len p1) eqn:L.
  - (* the whole frame is there *)
    assert (Fu : full f).
    { unfold full. destruct S4 as [->|S4]; [|exact S4]. cbn [wire_frames] in P1. rewrite app_nil_r in P1.
      apply prefix_length in P1. unfold len in *. lia. }
    assert (Hp1 : exists p2, p1 = snd f ++ p2 /\ prefix p2 (wire_frames l)).
    { destruct (prefix_app_cases _ _ _ P1) as [(x & Hx & E)|H]; [|exact H].
      exfalso. apply Hx. apply length_zero_iff_nil. apply (f_equal (@length _)) in E. rewrite app_length in E.
      unfold full, len in *. lia. }
    destruct Hp1 as (p2 & -> & P2). injection G1 as -> G1c G1r.
    unfold full in Fu. rewrite <- Fu, drop_len_app in G1r.
    assert (NE2 : no_empty_piece r2) by (eapply ok_rest_ne; eauto).
    assert (Hb : (length p2 < fuel)%nat).
    { rewrite !app_length in F. pose proof (hdr_nonempty _ S2) as Hn.
      destruct (hdr_of (fst f)); [congruence|]. cbn in F. lia. }
    destruct (IH S5 p2 P2 fuel (fs ++ [(fst f, st)]) r2 NE2 G1r Hb) as (n & t & closed & infl & frs & r' & H1 & H2 & H3 & H4).
    exists (S n), t, closed, infl, ((fst f, st) :: frs), r'. split; [|split; [|split]].
    + rewrite H1. rewrite <- app_assoc. reflexivity.
    + cbn. constructor; assumption.
    + cbn [norm map firstn app]. fold (norm frs). rewrite H3. cbn [fst snd]. rewrite G1c, G2.
      rewrite take_app_l by lia. rewrite take_all by lia. reflexivity.
    + rewrite (proj1 G3), E1 in H4.
      destruct H4 as [Hp|f0 h N1 N2 N3 Hp|f0 part N1 N2 N3 Hp].
      * apply stop_boundary. cbn [firstn wire_frames]. rewrite Hp. reflexivity.
      * eapply stop_header with (f := f0) (h := h); auto. cbn [firstn wire_frames]. rewrite Hp, <- !app_assoc. reflexivity.
      * eapply stop_payload with (f := f0) (part := part); auto. cbn [firstn wire_frames]. rewrite Hp, <- !app_assoc. reflexivity.
  - (* cut inside the payload *)
    assert (Pp : prefix p1 (snd f)).
    { destruct S4 as [->|S4].
      - cbn [wire_frames] in P1. rewrite app_nil_r in P1. exact P1.
      - apply prefix_app_short in P1; [exact P1|]. unfold len in *. lia. }
    rewrite take_all in G2 by lia. injection G1 as -> G1c G1r.
    exists 0%nat, (ending_task (ends r) (TFailed WrongSize)), None,
      [(fst f, p1, match ends r with Fin => Some (Failed WrongSize) | Reset => Some (Failed WebTransport) | Open => None end)].
    eexists. exists r2. split; [|split; [constructor|split]].
    + instantiate (1 := [(fst f, match ends r with Fin => frame_abort WrongSize st | Reset => frame_abort WebTransport st | Open => st end)]).
      destruct (ends r); reflexivity.
    + cbn [norm map firstn app fst snd]. destruct (ends r); cbn [frame_abort fs_chunks fs_closed]; rewrite ?G1c, G2; reflexivity.
    + apply stop_payload; auto. lia.
Qed.

(** ** Serving *)

(** The frames that can ever be on the wire: up to the first that does not end well. *)
Fixpoint wired (fs : list frame_view) : list (N * bytes) :=
  match fs with
  | [] => []
  | f :: fs => (fv_size f, concat (fv_chunks f)) :: (match fv_end f with AOk _ => wired fs | _ => [] end)
  end.

Lemma push_nil sent sched : push [] sent sched = (AOk tt, Send sent sched).
Proof. destruct sched; reflexivity. Qed.

Lemma push_prefix buf s x s' : push buf (sd_sent s) (sd_sched s) = (x, s') ->
  exists p, prefix p buf /\ sd_sent s' = sd_sent s ++ p /\ (x = AOk tt -> p = buf).
Proof.
  intros H. pose proof (push_spec (sd_sched s) buf (sd_sent s)) as P. rewrite H in P.
  destruct P as (p & q & E & Es & Hq & _). exists p. split; [exists q; exact E|]. split; [exact Es|].
  intros Hx. rewrite E, (Hq Hx), app_nil_r. reflexivity.
Qed.

Lemma prefix_app2 {A} (a p b : list A) : prefix p b -> prefix (a ++ p) (a ++ b).
Proof. intros [q ->]. exists q. rewrite app_assoc. reflexivity. Qed.
Lemma prefix_appr {A} (p a b : list A) : prefix p a -> prefix p (a ++ b).
Proof. intros [q ->]. exists (q ++ b). rewrite app_assoc. reflexivity. Qed.

(** [k] continues with bytes [W]. *)
Definition emits (k : send -> served * send) (W : bytes) (fin : Prop) : Prop :=
  forall s sv s', k s = (sv, s') ->
    exists p, sd_sent s' = sd_sent s ++ p /\ prefix p W /\ (sv = SFinished -> p = W /\ fin).

Lemma emits_await a k W fin : emits k W fin -> emits (of_await a k) (match a with AOk _ => W | _ => [] end) (a = AOk tt /\ fin).
Proof.
  intros K s sv s' H. destruct a as [[]|e| |]; cbn [of_await] in H.
  - destruct (K _ _ _ H) as (p & E & P & F). exists p. repeat split; auto; apply F; assumption.
  - injection H as <- <-. exists []. rewrite app_nil_r. split; [reflexivity|]. split; [apply prefix_nil|discriminate].
  - injection H as <- <-. exists []. rewrite app_nil_r. split; [reflexivity|]. split; [apply prefix_nil|discriminate].
  - injection H as <- <-. exists []. rewrite app_nil_r. split; [reflexivity|]. split; [apply prefix_nil|discriminate].
Qed.

Lemma emits_push buf k W fin : emits k W fin ->
  emits (fun s => then_write (push buf (sd_sent s) (sd_sched s)) k) (buf ++ W) fin.
Proof.
  intros K s sv s' H. unfold then_write in H.
  destruct (push buf (sd_sent s) (sd_sched s)) as [x s1] eqn:E. cbn [fst snd] in H.
  destruct (push_prefix _ _ _ _ E) as (p & Pp & Es & Hx). destruct x as [[]|e| |]; cbn [of_await] in H.
  - rewrite (Hx eq_refl) in *. destruct (K _ _ _ H) as (q & Eq & Pq & F).
    exists (buf ++ q). rewrite Eq, Es, app_assoc. split; [reflexivity|]. split; [apply prefix_app2; exact Pq|].
    intros Hs. destruct (F Hs) as [-> Hf]. auto.
  - injection H as <- <-. exists p. split; [exact Es|]. split; [apply prefix_appr; exact Pp|discriminate].
  - injection H as <- <-. exists p. split; [exact Es|]. split; [apply prefix_appr; exact Pp|discriminate].
  - injection H as <- <-. exists p. split; [exact Es|]. split; [apply prefix_appr; exact Pp|discriminate].
Qed.

Lemma emits_chunks fin k W f : emits k W f -> forall cs,
  emits (serve_chunks cs fin k) (concat cs ++ match fin with AOk _ => W | _ => [] end) (fin = AOk tt /\ f).
Proof.
  intros K. induction cs as [|c cs IH].
  - cbn [serve_chunks concat app]. apply emits_await. exact K.
  - cbn [serve_chunks concat]. rewrite <- app_assoc. exact (emits_push c _ _ _ IH).
Qed.

Lemma emits_encode {A} (enc : encoder A) m ps k W fin : enc m = Val ps -> emits k W fin ->
  emits (fun s => then_encode enc m s k) (wire ps ++ W) fin.
Proof.
  intros E K s sv s' H. unfold then_encode, writer_encode in H. rewrite E in H.
  exact (emits_push (wire ps) k W fin K s sv s' H).
Qed.

Lemma emits_frames fin : forall fs, Forall (fun f => fv_size f < 2 ^ 62) fs ->
  emits (serve_frames fs fin) (wire_frames (wired fs)) (Forall is_whole fs /\ fin = AOk tt).
Proof.
  induction fs as [|f fs IH]; intros HF.
  - cbn [serve_frames wired wire_frames]. intros s sv s' H.
    destruct fin as [[]|e| |]; cbn in H; injection H as <- <-; exists []; rewrite app_nil_r;
      (split; [reflexivity|]; split; [apply prefix_nil|]); try discriminate. intros _. repeat split; auto.
  - inversion HF as [|? ? H1 H2]; subst. specialize (IH H2).
    destruct (hdr_encode _ H1) as (ps & E & Eh).
    pose proof (emits_encode frame_header_encode (fv_size f) ps _ _ _ E
                  (emits_chunks (fv_end f) _ _ _ IH (fv_chunks f))) as G.
    intros s sv s' H. cbn [serve_frames] in H. destruct (G s sv s' H) as (p & Ep & Pp & Fp).
    exists p. split; [exact Ep|]. cbn [wired wire_frames fst snd]. rewrite <- Eh.
    split; [|].
    + destruct (fv_end f); exact Pp.
    + intros Hs. destruct (Fp Hs) as (-> & Hf & Hw & Hfin). rewrite Hf. repeat split; auto.
Qed.

Lemma stype : data_type_encode DGroup = Val [PInt 1 BE 0].
Proof. reflexivity. Qed.

Definition top_wire (hdr : bytes) (fs : list frame_view) : bytes := x00 :: hdr ++ wire_frames (wired fs).

Lemma serve_group_emits hdr v : header_ok hdr -> Forall (fun f => fv_size f < 2 ^ 62) (gv_frames v) ->
  exists h, group_header_encode hdr = Val h /\
    emits (serve_group hdr v) (top_wire (wire h) (gv_frames v)) (finished_view v).
Proof.
  intros H F. destruct (rt_kind 64 KGroup hdr H) as (h & E & _). exists h. split; [exact E|].
  pose proof (emits_frames (gv_end v) (gv_frames v) F) as G.
  pose proof (emits_encode group_header_encode hdr h _ _ _ E G) as G2.
  pose proof (emits_encode data_type_encode DGroup _ _ _ _ stype G2) as G3.
  intros s sv s' Hs. destruct (G3 s sv s' Hs) as (p & Ep & Pp & Fp). exists p. split; [exact Ep|]. split; [exact Pp|].
  intros Hf. destruct (Fp Hf) as (-> & H1 & H2). repeat split; auto.
Qed.
