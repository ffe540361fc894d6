(** Reader and writer lemmas. *)
From Coq Require Import NArith ZArith List Lia Bool.
From Coq Require Import Init.Byte Strings.Byte.
From Coq Require Import ZifyBool ZifyNat ZifyN.
From Verif.Model Require Import Base Coding Message ErrorCode Stream Frame Transfer.
From Verif.Spec Require Import CodingSpec MessageSpec StreamSpec.
From Verif.Proofs Require Import BaseP CodingP MessageP.
Import ListNotations.
Open Scope N_scope.

(** ** Flat reading *)
Definition flat_decode {A} (dec : decoder A) (bs : bytes) (e : ending) : await A * bytes :=
  match dec bs with
  | DOk m r => (AOk m, r)
  | DErr Short => (match e with Fin => AErr (Decode Short) | Reset => AErr WebTransport | Open => APending end, bs)
  | DErr err => (AErr (Decode err), bs)
  | DFuel => (AFuel, bs)
  end.

Definition flat (r : reader) : bytes * ending := (content r, ends r).

(** [rest] is what is left of [cs] after some front pieces were consumed (the first possibly split). *)
Definition ok_rest (r r' : reader) : Prop := ends r' = ends r /\ (no_empty_piece r -> no_empty_piece r').

Lemma ok_rest_refl r : ok_rest r r.
Proof. split; auto. Qed.
Lemma ok_rest_trans a b c : ok_rest a b -> ok_rest b c -> ok_rest a c.
Proof. intros [H1 H2] [H3 H4]. split; [congruence|auto]. Qed.

Lemma decode_with_flat {A} (dec : decoder A) : good dec -> forall cs buf e,
  let '(a, r') := decode_with dec buf cs e in
  (a, content r') = flat_decode dec (buf ++ concat cs) e /\
  ends r' = e /\ (exists n, rc_chunks (rd_stream r') = skipn n cs).
Proof.
  intros G. induction cs as [|c cs IH]; intros buf e; cbn [decode_with concat].
  - rewrite app_nil_r. unfold flat_decode. destruct (dec buf) as [m r|err|] eqn:E.
    + cbn. rewrite app_nil_r. repeat split. exists 0%nat. reflexivity.
    + destruct err; cbn; rewrite app_nil_r; repeat split; exists 0%nat; reflexivity.
    + cbn. rewrite app_nil_r. repeat split. exists 0%nat. reflexivity.
  - destruct (dec buf) as [m r|err|] eqn:E.
    + unfold flat_decode. rewrite (g_ok _ G _ _ _ (c ++ concat cs) E). cbn.
      repeat split. exists 0%nat. reflexivity.
    + assert (D : err = Short \/ err <> Short) by (destruct err; auto; right; discriminate).
      destruct D as [->|N].
      * specialize (IH (buf ++ c) e). destruct (decode_with dec (buf ++ c) cs e) as [a r'].
        rewrite <- app_assoc in IH. destruct IH as (H1 & H2 & n & H3). repeat split; auto.
        exists (S n). exact H3.
      * unfold flat_decode. rewrite (g_err _ G _ _ (c ++ concat cs) E N).
        destruct err; try congruence; cbn; repeat split; exists 0%nat; reflexivity.
    + exfalso. exact (g_total _ G _ E).
Qed.

Lemma Forall_skipn {A} (P : A -> Prop) n l : Forall P l -> Forall P (skipn n l).
Proof. revert l; induction n; intros l H; [exact H|]. destruct l; [constructor|]. inversion H; cbn; auto. Qed.

Lemma reader_decode_flat {A} (dec : decoder A) r : good dec ->
  let '(a, r') := reader_decode dec r in
  (a, content r') = flat_decode dec (content r) (ends r) /\ ok_rest r r'.
Proof.
  intros G. unfold reader_decode.
  pose proof (decode_with_flat dec G (rc_chunks (rd_stream r)) (rd_buf r) (rc_end (rd_stream r))) as H.
  destruct (decode_with _ _ _ _) as [a r']. destruct H as (H1 & H2 & n & H3).
  split; [exact H1|]. split; [exact H2|]. unfold no_empty_piece. rewrite H3. apply Forall_skipn.
Qed.

Definition flat_finished (bs : bytes) (e : ending) : await unit :=
  match bs with [] => at_end e tt | _ => AErr (Decode ExpectedEnd) end.

Lemma reader_finished_flat r : no_empty_piece r ->
  let '(a, r') := reader_finished r in
  (a, content r') = (flat_finished (content r) (ends r), content r) /\ ok_rest r r'.
Proof.
  intros NE. unfold reader_finished. destruct r as [buf [cs e]]. cbn in *. destruct buf as [|b buf].
  - unfold read_buf. cbn. destruct cs as [|c cs]; cbn.
    + split; [|apply ok_rest_refl]. destruct e; reflexivity.
    + inversion NE; subst. split; [|split; auto].
      unfold content; cbn. destruct c; [congruence|]. reflexivity.
  - split; [reflexivity|apply ok_rest_refl].
Qed.

Definition flat_maybe {A} (dec : decoder A) (bs : bytes) (e : ending) : await (option A) * bytes :=
  match bs with
  | [] => (at_end e None, [])
  | _ => let (y, bs) := flat_decode dec bs e in
         (match y with AOk a => AOk (Some a) | AErr e => AErr e | APending => APending | AFuel => AFuel end, bs)
  end.

Lemma reader_maybe_flat {A} (dec : decoder A) r : good dec -> no_empty_piece r ->
  let '(a, r') := reader_decode_maybe dec r in
  (a, content r') = flat_maybe dec (content r) (ends r) /\ ok_rest r r'.
Proof.
  intros G NE. unfold reader_decode_maybe.
  pose proof (reader_finished_flat r NE) as H. destruct (reader_finished r) as [x r1].
  destruct H as (H & R1). injection H as -> H.
  unfold flat_maybe, flat_finished. destruct (content r) as [|b bs] eqn:C.
  - destruct (ends r); cbn; rewrite H; auto.
  - pose proof (reader_decode_flat dec r1 G) as D. destruct (reader_decode dec r1) as [y r2].
    destruct D as (D & R2). rewrite H in D. destruct R1 as [E1 R1]. rewrite E1 in D.
    destruct (flat_decode dec (b :: bs) (ends r)) as [y' bs']. injection D as -> <-.
    split; [reflexivity|]. eapply ok_rest_trans; [|exact R2]. split; auto.
Qed.

Lemma take_all n bs : len bs <= n -> take n bs = bs.
Proof. intros H. unfold take. rewrite firstn_all2; [reflexivity|]. unfold len in *. lia. Qed.
Lemma drop_all n bs : len bs <= n -> drop n bs = [].
Proof. intros H. unfold drop. rewrite skipn_all2; [reflexivity|]. unfold len in *. lia. Qed.
Lemma take_drop n bs : take n bs ++ drop n bs = bs.
Proof. apply firstn_skipn. Qed.
Lemma len_take n bs : len (take n bs) = N.min n (len bs).
Proof. unfold take, len. rewrite firstn_length. lia. Qed.
Lemma len_drop n bs : len (drop n bs) = len bs - n.
Proof. unfold drop, len. rewrite skipn_length. lia. Qed.
Lemma len_app' (a b : bytes) : len (a ++ b) = len a + len b.
Proof. unfold len. rewrite app_length. lia. Qed.
Lemma take_app_l n a b : n <= len a -> take n (a ++ b) = take n a.
Proof.
  intros H. unfold take. rewrite len_app'. rewrite !N.min_l by lia.
  rewrite firstn_app. replace (N.to_nat n - length a)%nat with 0%nat by (unfold len in *; lia).
  cbn. apply app_nil_r.
Qed.
Lemma drop_app_l n a b : n <= len a -> drop n (a ++ b) = drop n a ++ b.
Proof.
  intros H. unfold drop. rewrite len_app'. rewrite !N.min_l by lia.
  rewrite skipn_app. replace (N.to_nat n - length a)%nat with 0%nat by (unfold len in *; lia). reflexivity.
Qed.
Lemma take_app_r n a b : len a <= n -> take n (a ++ b) = a ++ take (n - len a) b.
Proof.
  intros H. unfold take. rewrite len_app'.
  rewrite firstn_app, firstn_all2 by (unfold len in *; lia). f_equal. f_equal. unfold len in *. lia.
Qed.
Lemma drop_app_r n a b : len a <= n -> drop n (a ++ b) = drop (n - len a) b.
Proof.
  intros H. unfold drop. rewrite len_app'.
  rewrite skipn_app, skipn_all2 by (unfold len in *; lia). cbn. f_equal. unfold len in *. lia.
Qed.
Lemma len_cons' (b : byte) bs : len (b :: bs) = 1 + len bs.
Proof. unfold len. cbn [length]. lia. Qed.
Lemma take_0 bs : take 0 bs = [].
Proof. unfold take. rewrite N.min_l by lia. reflexivity. Qed.
Lemma drop_0 bs : drop 0 bs = bs.
Proof. unfold drop. rewrite N.min_l by lia. reflexivity. Qed.
Lemma len_nil_iff (bs : bytes) : len bs = 0 <-> bs = [].
Proof. unfold len. destruct bs; cbn; split; intros; try discriminate; auto; lia. Qed.

Lemma drop_len_app a b : drop (len a) (a ++ b) = b.
Proof. rewrite drop_app_r by lia. rewrite N.sub_diag. apply drop_0. Qed.

(** One raw read. *)
Lemma reader_read_spec max r a r' : reader_read max r = (a, r') ->
  ok_rest r r' /\
  match a with
  | AOk (Some c) => content r = c ++ content r' /\ len c <= max /\ content r' = drop (len c) (content r)
  | AOk None => content r = [] /\ ends r = Fin /\ r' = r
  | AErr e => content r = [] /\ ends r = Reset /\ e = WebTransport /\ r' = r
  | APending => content r = [] /\ ends r = Open /\ r' = r
  | AFuel => False
  end.
Proof.
  unfold reader_read. destruct r as [buf [cs e]]; cbn. destruct buf as [|b buf].
  - unfold stream_read; cbn. destruct cs as [|c cs]; cbn.
    + intros [= <- <-]. split; [apply ok_rest_refl|]. destruct e; cbn; auto.
    + intros [= <- <-].
      assert (E : c ++ concat cs = take max c ++ concat (match drop max c with [] => cs | _ :: _ => drop max c :: cs end)).
      { destruct (drop max c) eqn:D.
        - rewrite <- (take_drop max c) at 1. rewrite D, app_nil_r. reflexivity.
        - cbn [concat]. rewrite <- D, app_assoc, take_drop. reflexivity. }
      split.
      * split; [reflexivity|]. cbn. intros H. inversion H; subst. unfold no_empty_piece; cbn.
        destruct (drop max c) eqn:D; [assumption|]. constructor; [congruence|assumption].
      * unfold content; cbn. split; [exact E|]. split; [rewrite len_take; lia|].
        rewrite E, drop_len_app. reflexivity.
  - intros [= <- <-]. split; [split; auto|]. unfold content; cbn.
    rewrite (app_comm_cons buf (concat cs) b).
    split; [rewrite app_assoc, take_drop; reflexivity|]. split; [rewrite len_take; lia|].
    rewrite len_take. destruct (N.le_ge_cases max (len (b :: buf))) as [L|L].
    + rewrite N.min_l by lia. rewrite drop_app_l by lia. reflexivity.
    + rewrite N.min_r by lia. rewrite drop_all by lia. rewrite drop_app_r by lia.
      rewrite N.sub_diag, drop_0. reflexivity.
Qed.

(** Pieces that a read of at most [max > 0] bytes goes through. *)
Definition rounds (r : reader) : nat :=
  (match rd_buf r with [] => 0 | _ => 1 end + length (rc_chunks (rd_stream r)))%nat.

Lemma reader_read_progress max r c r' : reader_read max r = (AOk (Some c), r') -> 0 < max ->
  len c = max \/ (rounds r' < rounds r)%nat.
Proof.
  unfold reader_read. destruct r as [buf [cs e]]; cbn. destruct buf as [|b buf].
  - unfold stream_read; cbn. destruct cs as [|d cs]; cbn; [destruct e; discriminate|].
    intros [= <- <-] Hm. destruct (drop max d) eqn:D; [right; cbn; lia|left].
    rewrite len_take. pose proof (len_drop max d) as H. rewrite D, len_cons' in H. lia.
  - intros [= <- <-] Hm. destruct (drop max (b :: buf)) eqn:D.
    + right. unfold rounds. cbn. lia.
    + left. rewrite len_take. pose proof (len_drop max (b :: buf)) as H. rewrite D, len_cons' in H. lia.
Qed.

(** The whole of a frame. *)
Definition frame_got (size : N) (bs : bytes) (e : ending) : task * option outcome * bytes :=
  if size <=? len bs then (TDone, Some Finished, drop size bs)
  else (match e with Fin => TFailed WrongSize | Reset => TFailed WebTransport | Open => TPending end, None, []).

Lemma run_frame_flat w size : size < 2 ^ w -> forall fuel remain written st r,
  (rounds r < fuel)%nat -> written + remain = size -> fs_closed st = None ->
  let '(t, st', r') := run_frame w fuel size remain written st r in
  (t, fs_closed st', content r') = frame_got remain (content r) (ends r) /\
  concat (fs_chunks st') = concat (fs_chunks st) ++ take remain (content r) /\
  ok_rest r r'.
Proof.
  intros Hw. induction fuel as [|fuel IH]; intros remain written st r Hf Hs Hc; [lia|].
  cbn [run_frame]. destruct (remain =? 0) eqn:R0.
  - assert (remain = 0) as -> by lia. unfold frame_finish. rewrite N.mod_small by lia.
    replace (written =? size) with true by lia. unfold frame_got.
    replace (0 <=? len (content r)) with true by lia. cbn [fs_closed fs_chunks].
    rewrite drop_0, take_0, app_nil_r. repeat split; auto.
  - rewrite N.mod_small by lia. destruct (reader_read remain r) as [a r'] eqn:E.
    pose proof (reader_read_spec _ _ _ _ E) as [R S].
    destruct a as [[c|]|e| |].
    + destruct S as (S1 & S2 & S3).
      assert (Hl : len (content r) = len c + len (content r')) by (rewrite S1; apply len_app').
      replace (remain <? len c) with false by lia.
      unfold frame_write. rewrite N.mod_small by lia.
      replace (written + len c <=? size) with true by lia. rewrite Hc.
      destruct (reader_read_progress _ _ _ _ E ltac:(lia)) as [P|P].
      * (* everything read *)
        assert (remain - len c = 0) as -> by lia.
        replace (run_frame w fuel size 0 (written + len c) (FrameState (fs_chunks st ++ [c]) None) r')
          with (TDone, FrameState (fs_chunks st ++ [c]) (Some Finished), r').
        2:{ destruct fuel; cbn [run_frame]; cbn [N.eqb]; unfold frame_finish; rewrite N.mod_small by lia;
            replace (written + len c =? size) with true by lia; reflexivity. }
        cbn [fs_closed fs_chunks]. unfold frame_got. rewrite Hl.
        replace (remain <=? len c + len (content r')) with true by lia.
        repeat split; auto.
        -- rewrite S3. rewrite P. reflexivity.
        -- rewrite concat_app. cbn. rewrite app_nil_r. rewrite S1. rewrite take_app_l by lia.
           rewrite take_all by lia. reflexivity.
        -- exact (proj1 R).
        -- exact (proj2 R).
      * specialize (IH (remain - len c) (written + len c) (FrameState (fs_chunks st ++ [c]) None) r'
                      ltac:(lia) ltac:(lia) eq_refl).
        destruct (run_frame w fuel size (remain - len c) (written + len c) _ r') as [[t st'] r2].
        destruct IH as (I1 & I2 & I3). rewrite I1, I2. cbn [fs_chunks]. split; [|split].
        -- unfold frame_got. rewrite (proj1 R). rewrite Hl.
           destruct (remain - len c <=? len (content r')) eqn:L.
           ++ replace (remain <=? len c + len (content r')) with true by lia.
              rewrite S1. rewrite drop_app_r by lia. reflexivity.
           ++ replace (remain <=? len c + len (content r')) with false by lia. reflexivity.
        -- rewrite concat_app. cbn [concat]. rewrite app_nil_r. rewrite S1. rewrite take_app_r by lia.
           rewrite app_assoc. reflexivity.
        -- eapply ok_rest_trans; eassumption.
    + destruct S as (S1 & S2 & ->). unfold frame_got. rewrite S1, S2. unfold len at 1. cbn [length].
      replace (remain <=? N.of_nat 0) with false by lia. rewrite Hc. split; [reflexivity|]. split.
      * rewrite take_all by (unfold len; cbn; lia). rewrite app_nil_r. reflexivity.
      * exact R.
    + destruct S as (S1 & S2 & -> & ->). unfold frame_got. rewrite S1, S2. unfold len at 1. cbn [length].
      replace (remain <=? N.of_nat 0) with false by lia. rewrite Hc. split; [reflexivity|]. split.
      * rewrite take_all by (unfold len; cbn; lia). rewrite app_nil_r. reflexivity.
      * exact R.
    + destruct S as (S1 & S2 & ->). unfold frame_got. rewrite S1, S2. unfold len at 1. cbn [length].
      replace (remain <=? N.of_nat 0) with false by lia. rewrite Hc. split; [reflexivity|]. split.
      * rewrite take_all by (unfold len; cbn; lia). rewrite app_nil_r. reflexivity.
      * exact R.
    + destruct S.
Qed.

Lemma frame_fuel_ok r : (rounds r < frame_fuel r)%nat.
Proof. unfold rounds, frame_fuel. destruct (rd_buf r); cbn; lia. Qed.

(** ** Scripts *)
Definition same (r1 r2 : reader) : Prop :=
  content r1 = content r2 /\ ends r1 = ends r2 /\ no_empty_piece r1 /\ no_empty_piece r2.

Lemma perform_same w o r1 r2 : op_fits w o -> same r1 r2 ->
  fst (perform w o r1) = fst (perform w o r2) /\ settled (fst (perform w o r1)) /\
  same (snd (perform w o r1)) (snd (perform w o r2)).
Proof.
  intros F (C & E & N1 & N2). destruct o as [k|k| |size]; cbn [perform].
  - pose proof (reader_decode_flat (decode_kind w k) r1 (good_kind w k)) as H1.
    pose proof (reader_decode_flat (decode_kind w k) r2 (good_kind w k)) as H2.
    destruct (reader_decode (decode_kind w k) r1) as [a1 s1], (reader_decode (decode_kind w k) r2) as [a2 s2].
    destruct H1 as (H1 & [E1 K1]), H2 as (H2 & [E2 K2]). rewrite C, E in H1. rewrite <- H2 in H1.
    injection H1 as -> Hc. cbn [fst snd]. split; [reflexivity|]. split.
    + unfold flat_decode in H2. destruct (decode_kind w k (content r2)) as [m r|err|] eqn:D.
      * injection H2 as -> _. exact I.
      * destruct err; try (injection H2 as -> _; exact I).
        destruct (ends r2); injection H2 as -> _; exact I.
      * exfalso. exact (g_total _ (good_kind w k) _ D).
    + repeat split; auto. congruence.
  - pose proof (reader_maybe_flat (decode_kind w k) r1 (good_kind w k) N1) as H1.
    pose proof (reader_maybe_flat (decode_kind w k) r2 (good_kind w k) N2) as H2.
    destruct (reader_decode_maybe (decode_kind w k) r1) as [a1 s1], (reader_decode_maybe (decode_kind w k) r2) as [a2 s2].
    destruct H1 as (H1 & [E1 K1]), H2 as (H2 & [E2 K2]). rewrite C, E in H1. rewrite <- H2 in H1.
    injection H1 as -> Hc. cbn [fst snd]. split; [reflexivity|]. split.
    + unfold flat_maybe in H2. destruct (content r2) as [|b bs].
      { destruct (ends r2); injection H2 as -> _; exact I. }
      unfold flat_decode in H2. destruct (decode_kind w k (b :: bs)) as [m r|err|] eqn:D.
      * injection H2 as -> _. exact I.
      * destruct err; try (injection H2 as -> _; exact I).
        destruct (ends r2); injection H2 as -> _; exact I.
      * exfalso. exact (g_total _ (good_kind w k) _ D).
    + repeat split; auto. congruence.
  - pose proof (reader_finished_flat r1 N1) as H1. pose proof (reader_finished_flat r2 N2) as H2.
    destruct (reader_finished r1) as [a1 s1], (reader_finished r2) as [a2 s2].
    destruct H1 as (H1 & [E1 K1]), H2 as (H2 & [E2 K2]). injection H1 as -> H1. injection H2 as -> H2.
    cbn [fst snd]. rewrite C, E. split; [reflexivity|]. split.
    + unfold flat_finished. destruct (content r2); [|exact I]. destruct (ends r2); exact I.
    + repeat split; auto; congruence.
  - cbn [op_fits] in F.
    pose proof (run_frame_flat w size F (frame_fuel r1) size 0 frame_new r1 (frame_fuel_ok r1) ltac:(lia) eq_refl) as H1.
    pose proof (run_frame_flat w size F (frame_fuel r2) size 0 frame_new r2 (frame_fuel_ok r2) ltac:(lia) eq_refl) as H2.
    destruct (run_frame w (frame_fuel r1) size size 0 frame_new r1) as [[t1 st1] s1].
    destruct (run_frame w (frame_fuel r2) size size 0 frame_new r2) as [[t2 st2] s2].
    destruct H1 as (H1 & D1 & [E1 K1]), H2 as (H2 & D2 & [E2 K2]). cbn [fst snd].
    rewrite D1, D2, C. rewrite C, E in H1. rewrite <- H2 in H1. injection H1 as -> -> Hc.
    split; [reflexivity|]. split.
    + unfold frame_got in H2. destruct (size <=? len (content r2)).
      * injection H2 as -> _ _. exact I.
      * destruct (ends r2); injection H2 as -> _ _; exact I.
    + repeat split; auto; congruence.
Qed.

Lemma observe_same w : forall script r1 r2, Forall (op_fits w) script -> same r1 r2 ->
  observe w script r1 = observe w script r2 /\ Forall settled (observe w script r1).
Proof.
  induction script as [|o script IH]; intros r1 r2 F S; cbn [observe]; [split; [reflexivity|constructor]|].
  inversion F; subst. destruct (perform_same w o r1 r2 H1 S) as (P1 & P2 & P3).
  destruct (perform w o r1) as [x1 s1], (perform w o r2) as [x2 s2]. cbn [fst snd] in *. subst x2.
  destruct (IH s1 s2 H2 P3) as (-> & Q). split; [reflexivity|]. rewrite <- (proj1 (IH s1 s2 H2 P3)) in *. constructor; assumption.
Qed.

Lemma chunk_independence w script r1 r2 : Forall (op_fits w) script ->
  content r1 = content r2 -> ends r1 = ends r2 -> no_empty_piece r1 -> no_empty_piece r2 ->
  observe w script r1 = observe w script r2 /\ Forall settled (observe w script r1).
Proof. intros F C E N1 N2. apply observe_same; [exact F|]. repeat split; auto. Qed.

Lemma raw_read_splits max r a r' : reader_read max r = (a, r') ->
  match a with
  | AOk (Some c) => content r = c ++ content r' /\ len c <= max /\ ends r' = ends r
  | AOk None => content r = [] /\ ends r = Fin
  | AErr e => content r = [] /\ ends r = Reset
  | APending => content r = [] /\ ends r = Open
  | AFuel => False
  end.
Proof.
  intros H. destruct (reader_read_spec _ _ _ _ H) as ([R1 _] & S). destruct a as [[c|]|e| |]; intuition.
Qed.

(** A wait that is resumed after more data has arrived gives what an uninterrupted one would. *)
Lemma decode_resumes w k r x r' more e :
  reader_decode (decode_kind w k) r = (x, r') -> x = APending ->
  reader_decode (decode_kind w k) (Reader (rd_buf r') (Recv (rc_chunks (rd_stream r') ++ more) e)) =
  reader_decode (decode_kind w k) (Reader (rd_buf r) (Recv (rc_chunks (rd_stream r) ++ more) e)).
Proof.
  unfold reader_decode. destruct r as [buf [cs e0]]. cbn [rd_buf rd_stream rc_chunks rc_end].
  revert buf. induction cs as [|c cs IH]; intros buf.
  - cbn [decode_with app]. destruct (decode_kind w k buf) as [m rest|err|] eqn:D.
    + intros [= <- <-]; discriminate.
    + destruct err; intros [= <- <-]; try discriminate. intros H. destruct e0; try discriminate.
      reflexivity.
    + intros [= <- <-]; discriminate.
  - cbn [decode_with app]. destruct (decode_kind w k buf) as [m rest|err|] eqn:D.
    + intros [= <- <-]; discriminate.
    + destruct err; try (intros [= <- <-]; discriminate). intros H Hx. cbn [decode_with].
      exact (IH (buf ++ c) H Hx).
    + intros [= <- <-]; discriminate.
Qed.

(** ** End of stream *)
Lemma finished_exact r : no_empty_piece r ->
  let (a, r') := reader_finished r in
  (a = AOk tt <-> content r = [] /\ ends r = Fin) /\
  (a = AErr (Decode ExpectedEnd) <-> content r <> []) /\
  (a = AErr WebTransport <-> content r = [] /\ ends r = Reset) /\
  (a = APending <-> content r = [] /\ ends r = Open) /\
  content r' = content r.
Proof.
  intros NE. pose proof (reader_finished_flat r NE) as H. destruct (reader_finished r) as [a r'].
  destruct H as (H & _). injection H as -> H. rewrite H. unfold flat_finished.
  destruct (content r) as [|b bs]; cbn.
  - destruct (ends r); cbn; intuition congruence.
  - intuition congruence.
Qed.

Lemma maybe_exact w k r : no_empty_piece r ->
  let (a, r') := reader_decode_maybe (decode_kind w k) r in
  (a = AOk None <-> content r = [] /\ ends r = Fin) /\
  (forall m, a = AOk (Some m) <-> decode_kind w k (content r) = DOk m (content r') /\ content r <> []).
Proof.
  intros NE. pose proof (reader_maybe_flat (decode_kind w k) r (good_kind w k) NE) as H.
  destruct (reader_decode_maybe (decode_kind w k) r) as [a r']. destruct H as (H & _).
  unfold flat_maybe in H. destruct (content r) as [|b bs] eqn:C.
  - injection H as -> H. split.
    + destruct (ends r); cbn; intuition congruence.
    + intros m. destruct (ends r); cbn; intuition congruence.
  - unfold flat_decode in H. destruct (decode_kind w k (b :: bs)) as [m0 rest|err|] eqn:D.
    + injection H as -> ->. split; [split; [discriminate|intros [? _]; discriminate]|].
      intros m. split; [intros [= ->]; split; [reflexivity|discriminate]|]. intros [[= ->] _]. reflexivity.
    + split.
      * split; [|intros [? _]; discriminate]. intros ->. destruct err; try discriminate. destruct (ends r); discriminate.
      * intros m. split; [|intros [? _]; discriminate]. intros ->. destruct err; try discriminate. destruct (ends r); discriminate.
    + injection H as -> _. split; [split; [discriminate|intros [? _]; discriminate]|].
      intros m. split; [discriminate|intros [? _]; discriminate].
Qed.

(** ** Writing *)
Lemma push_spec sched : forall buf sent,
  let (a, s) := push buf sent sched in
  exists p q, buf = p ++ q /\ sd_sent s = sent ++ p /\
    (a = AOk tt -> q = []) /\ a <> AFuel /\
    (lively sched -> (length buf <= length sched)%nat ->
       a = AOk tt /\ lively (sd_sched s) /\ (length sched <= length (sd_sched s) + length buf)%nat).
Proof.
  induction sched as [|x sched IH]; intros buf sent.
  - destruct buf as [|b buf]; cbn [push].
    + exists [], []. cbn [sd_sent sd_sched]. rewrite ?app_nil_r. repeat split; auto; try discriminate.
    + exists [], (b :: buf). cbn [sd_sent sd_sched]. rewrite ?app_nil_r.
      repeat split; auto; try discriminate; cbn in *; lia.
  - destruct buf as [|b buf].
    + cbn [push]. exists [], []. cbn [sd_sent sd_sched]. rewrite ?app_nil_r.
      repeat split; auto; try discriminate; cbn; lia.
    + destruct x as [n|].
      * change (push (b :: buf) sent (Acc n :: sched))
          with (push (skipn n (b :: buf)) (sent ++ firstn n (b :: buf)) sched).
        specialize (IH (skipn n (b :: buf)) (sent ++ firstn n (b :: buf))).
        destruct (push (skipn n (b :: buf)) (sent ++ firstn n (b :: buf)) sched) as [a s].
        destruct IH as (p & q & E & Es & Ha & Hf & Hd).
        exists (firstn n (b :: buf) ++ p), q. split; [|split; [|split; [|split]]]; auto.
        -- rewrite <- app_assoc, <- E, firstn_skipn. reflexivity.
        -- rewrite Es, app_assoc. reflexivity.
        -- intros HL HB. inversion HL as [|? ? [m ->] HL']; subst.
           rewrite skipn_length in Hd. cbn [length] in *.
           destruct (Hd HL' ltac:(lia)) as (D1 & D2 & D3). repeat split; auto. lia.
      * cbn [push]. exists [], (b :: buf). cbn [sd_sent]. rewrite ?app_nil_r.
        split; [reflexivity|]. split; [reflexivity|]. split; [discriminate|]. split; [discriminate|].
        intros HL. inversion HL as [|? ? [m Hm] HL']; discriminate.
Qed.

Lemma write_script_spec : forall l s total, stands_for l total ->
  let (a, s') := write_script l s in
  exists p q, total = p ++ q /\ sd_sent s' = sd_sent s ++ p /\
    (a = Val (AOk tt) -> q = []) /\ a <> Panic /\ a <> Val AFuel /\
    (lively (sd_sched s) -> (length total <= length (sd_sched s))%nat -> a = Val (AOk tt)).
Proof.
  induction l as [|o l IH]; intros s total H; cbn [write_script stands_for] in *.
  - subst total. exists [], []. rewrite ?app_nil_r. repeat split; auto; discriminate.
  - destruct H as (a & b & Ho & Hl & ->).
    assert (K : match o with
                | WMsg k m => writer_encode (encode_kind k) m s
                | WRaw bs => Val (writer_write bs s)
                end = Val (push a (sd_sent s) (sd_sched s))).
    { destruct o as [k m|bs]; cbn [wop_bytes] in Ho.
      - unfold writer_encode. destruct (encode_kind k m); [|discriminate]. injection Ho as ->. reflexivity.
      - injection Ho as ->. reflexivity. }
    pose proof (push_spec (sd_sched s) a (sd_sent s)) as P.
    assert (G : match push a (sd_sent s) (sd_sched s) with
                | (AOk _, s1) => write_script l s1
                | (x, s1) => (Val x, s1)
                end = write_script (o :: l) s).
    { cbn [write_script]. destruct o as [k m|bs].
      - rewrite K. destruct (push a (sd_sent s) (sd_sched s)) as [[] ?]; reflexivity.
      - injection K as ->. destruct (push a (sd_sent s) (sd_sched s)) as [[] ?]; reflexivity. }
    cbn [write_script] in G. rewrite <- G. clear G K Ho.
    destruct (push a (sd_sent s) (sd_sched s)) as [x s1].
    destruct P as (p & q & Ea & Es & Hx & Hfu & Hd).
    destruct x as [[]|e| |].
    + rewrite (Hx eq_refl), app_nil_r in Ea. subst p.
      specialize (IH s1 b Hl). destruct (write_script l s1) as [y s2].
      destruct IH as (p' & q' & Eb & Es' & Hy & Hp & Hfu' & Hd').
      exists (a ++ p'), q'. rewrite Es', Es, <- !app_assoc. subst b. repeat split; auto.
      intros HL HB. rewrite app_length in HB. destruct (Hd HL ltac:(lia)) as (_ & D2 & D3).
      apply Hd'; auto. lia.
    + exists p, (q ++ b). subst a. rewrite <- app_assoc. repeat split; auto; try discriminate.
      intros HL HB. rewrite !app_length in HB. rewrite app_length in Hd. destruct (Hd HL ltac:(lia)) as (D & _). discriminate.
    + exists p, (q ++ b). subst a. rewrite <- app_assoc. repeat split; auto; try discriminate.
      intros HL HB. rewrite !app_length in HB. rewrite app_length in Hd. destruct (Hd HL ltac:(lia)) as (D & _). discriminate.
    + congruence.
Qed.
