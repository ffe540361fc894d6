From Coq Require Import NArith ZArith List Lia Bool Arith.
From Coq Require Import Init.Byte Strings.Byte.
From Verif.Model Require Import Base Coding ErrorCode Stream Frame FrameSys GroupSys TrackSys Media.
From Verif.Spec Require Import MediaSpec.
From Verif.Proofs Require Import BaseP CodingP CodingTop TableP.
Import ListNotations.
Open Scope nat_scope.

(** * Cutting at keyframes, as a function *)
Definition add_media (gs : list (list mframe)) (f : mframe) : list (list mframe) :=
  match rev gs with
  | [] => [[f]]
  | l :: pre => if mf_key f then gs ++ [[f]] else rev pre ++ [l ++ [f]]
  end.
Definition media_groups (fs : list mframe) : list (list mframe) := fold_left add_media fs [].

Lemma media_groups_snoc fs f : media_groups (fs ++ [f]) = add_media (media_groups fs) f.
Proof. unfold media_groups. rewrite fold_left_app. reflexivity. Qed.

Lemma add_media_nil f : add_media [] f = [[f]].
Proof. reflexivity. Qed.
Lemma add_media_key pre l f : mf_key f = true -> add_media (pre ++ [l]) f = (pre ++ [l]) ++ [[f]].
Proof. intros H. unfold add_media. rewrite rev_app_distr. cbn. rewrite H. reflexivity. Qed.
Lemma add_media_delta pre l f : mf_key f = false -> add_media (pre ++ [l]) f = pre ++ [l ++ [f]].
Proof. intros H. unfold add_media. rewrite rev_app_distr. cbn. rewrite H, rev_involutive. reflexivity. Qed.

Lemma tl_app {A} (l m : list A) : l <> [] -> tl (l ++ m) = tl l ++ m.
Proof. destruct l; cbn; congruence. Qed.

Lemma media_groups_cut fs : cut_at_keyframes fs (media_groups fs).
Proof.
  induction fs as [|f fs IH] using rev_ind.
  - unfold cut_at_keyframes. cbn. auto.
  - rewrite media_groups_snoc. destruct IH as (C & S1 & S2).
    destruct (media_groups fs) as [|x gs] using rev_ind; [|clear IHgs].
    + rewrite add_media_nil. cbn in C. subst fs. repeat split; cbn; auto.
      constructor; auto. exists f, []. auto.
    + destruct (mf_key f) eqn:K.
      * rewrite add_media_key by auto. repeat split.
        -- rewrite concat_app, C. reflexivity.
        -- apply Forall_app. split; auto. constructor; auto. exists f, []. auto.
        -- rewrite tl_app by (destruct gs; discriminate). apply Forall_app. split; auto.
           constructor; auto. exists f, []. auto.
      * rewrite add_media_delta by auto. apply Forall_app in S1 as [S1 S1'].
        apply Forall_inv in S1'. destruct S1' as (h & rest & -> & R). repeat split.
        -- rewrite concat_app in *. cbn in *. rewrite app_nil_r in *. rewrite <- C, <- app_assoc. reflexivity.
        -- apply Forall_app. split; auto. constructor; auto. exists h, (rest ++ [f]). split; auto.
           apply Forall_app; auto.
        -- destruct gs as [|g gs]; cbn in *; auto. apply Forall_app in S2 as [S2 S2'].
           apply Forall_app. split; auto. constructor; auto. apply Forall_inv in S2'.
           destruct S2' as (h' & r' & E & K'). injection E as <- <-. exists h, (rest ++ [f]). auto.
Qed.

(** There is only one way to cut. *)
Lemma cut_first g gs fs : cut_at_keyframes fs (g :: gs) ->
  exists f rest, g = f :: rest /\ Forall (fun x => mf_key x = false) rest /\ fs = g ++ concat gs /\
    cut_at_keyframes (concat gs) gs /\ Forall (fun g => exists f rest, g = f :: rest /\ mf_key f = true) gs.
Proof.
  intros (C & S1 & S2). cbn in *. pose proof (Forall_inv S1) as (f & rest & -> & R).
  exists f, rest. repeat split; auto.
  - apply (Forall_inv_tail S1).
  - destruct gs; cbn; auto. apply (Forall_inv_tail S2).
Qed.

Lemma cut_unique fs gs gs' : cut_at_keyframes fs gs -> cut_at_keyframes fs gs' -> gs = gs'.
Proof.
  revert fs gs'. induction gs as [|g gs IH]; intros fs gs' H H'.
  - destruct H as (C & _). cbn in C. subst fs. destruct gs' as [|g' gs']; auto.
    apply cut_first in H' as (f & r & -> & _ & E & _). discriminate.
  - destruct gs' as [|g' gs'].
    + destruct H' as (C & _). cbn in C. subst fs. apply cut_first in H as (f & r & -> & _ & E & _). discriminate.
    + pose proof (cut_first _ _ _ H) as (f & r & -> & R & E & Cu & K).
      pose proof (cut_first _ _ _ H') as (f' & r' & -> & R' & E' & Cu' & K').
      assert (G : forall r (gs : list (list mframe)) r' gs', 
        Forall (fun x => mf_key x = false) r -> Forall (fun x => mf_key x = false) r' ->
        Forall (fun g => exists f rest, g = f :: rest /\ mf_key f = true) gs ->
        Forall (fun g => exists f rest, g = f :: rest /\ mf_key f = true) gs' ->
        r ++ concat gs = r' ++ concat gs' -> r = r' /\ concat gs = concat gs').
      { clear. induction r as [|x r IH]; intros gs [|x' r'] gs' R R' K K' E; cbn in E.
        - auto.
        - exfalso. destruct gs as [|g gs]; [discriminate|]. pose proof (Forall_inv K) as (k & q & -> & Kk).
          cbn in E. injection E as <- _. apply Forall_inv in R'. congruence.
        - exfalso. destruct gs' as [|g gs']; [discriminate|]. pose proof (Forall_inv K') as (k & q & -> & Kk).
          cbn in E. injection E as -> _. apply Forall_inv in R. congruence.
        - injection E as <- E. destruct (IH gs r' gs') as [-> Ec]; auto; eauto using Forall_inv_tail. }
      rewrite E in E'. cbn in E'. injection E' as <- E'.
      destruct (G _ _ _ _ R R' K K' E') as [<- Ec]. f_equal. eapply IH; eauto. rewrite Ec. exact Cu'.
Qed.

(** * Headers *)
Lemma header_ok f w : in_range w f ->
  media_header (mf_ts f) = Val (header_of f) /\ (media_size f < 2 ^ w)%N /\
  (forall i rest, media_decode i (header_of f ++ rest) = Some (MFrame (mf_ts f / 1000 * 1000) (Nat.eqb i 0) rest)).
Proof.
  intros [T D]. assert (E : ((mf_ts f / 1000) mod 2 ^ 64 = mf_ts f / 1000)%N).
  { apply N.mod_small. eapply N.lt_trans; [exact T|]. reflexivity. }
  unfold media_size, header_of, media_header, media_decode. rewrite E.
  assert (L : exists ps, u64_encode (mf_ts f / 1000) = Val ps /\ (len (wire ps) <= 8)%N).
  { unfold u64_encode, varint_try_from. rewrite varint_max_spec.
    destruct (mf_ts f / 1000 <=? 2 ^ 62 - 1)%N eqn:L; [|apply N.leb_gt in L; lia].
    unfold varint_encode, varint_size.
    destruct (mf_ts f / 1000 <? 2 ^ 6)%N; [|destruct (mf_ts f / 1000 <? 2 ^ 14)%N; [|destruct (mf_ts f / 1000 <? 2 ^ 30)%N]];
    eexists; split; try reflexivity; cbn; unfold len; cbn; lia. }
  destruct L as (ps & Ep & L). destruct (varint_roundtrip (mf_ts f / 1000) [] T) as (ps' & E1 & _).
  rewrite Ep. repeat split; [lia|]. intros i rest.
  destruct (varint_roundtrip (mf_ts f / 1000) rest T) as (ps2 & E2 & Dc).
  rewrite Ep in E2. injection E2 as <-. rewrite Dc. reflexivity.
Qed.

(** * The exact state of the groups *)
Definition full (f : mframe) : fsys :=
  FSys (media_size f) (FrameState [header_of f; mf_data f] (Some Finished)) [None] [None] 0.
Definition part (k : stage) (f : mframe) : list fsys :=
  match k with
  | SHeader => [FSys (media_size f) (FrameState [] None) [Some 0%N] [None] 0]
  | SPayload => [FSys (media_size f) (FrameState [header_of f] None) [Some (len (header_of f))] [None] 0]
  | SEnd => [FSys (media_size f) (FrameState [header_of f; mf_data f] None) [Some (media_size f)] [None] 0]
  | _ => []
  end.

(** Complete frames, the frame in progress, whether the group is finished. *)
Notation shape := (list mframe * list fsys * bool)%type.
Definition gshape (sh : shape) (g : gsys) : Prop :=
  let '(fs, p, fin) := sh in
  gs_heap g = map full fs ++ p /\
  gs_frames g = map (fun i => (i, 0)) (seq 0 (length (gs_heap g))) /\
  gs_closed g = (if fin : bool then Some Finished else None) /\
  gs_prods g = [if fin then None else Some tt] /\ gs_guards g = 0 /\
  get (gs_cons g) 0 = Some (GC 0 None).

Definition allfin (gs : list (list mframe)) : list shape := map (fun l => (l, [], true)) gs.

Inductive job (ws : list mframe) : option (stage * mframe) -> list shape -> option nat -> list (option tprod) -> Prop :=
| JEmpty : ws = [] -> job ws None [] None [Some Idle]
| JIdle pre l : media_groups ws = pre ++ [l] ->
    job ws None (allfin pre ++ [(l, [], false)]) (Some (length pre)) [Some Idle]
| JFin ws0 f pre l : ws = ws0 ++ [f] -> mf_key f = true -> media_groups ws0 = pre ++ [l] ->
    job ws (Some (SFinish, f)) (allfin pre ++ [(l, [], false)]) (Some (length pre)) [Some Idle]
| JApp1 ws0 f : ws = ws0 ++ [f] -> media_groups ws = media_groups ws0 ++ [[f]] ->
    job ws (Some (SAppend1, f)) (allfin (media_groups ws0)) None [Some Idle]
| JApp2 ws0 f : ws = ws0 ++ [f] -> media_groups ws = media_groups ws0 ++ [[f]] ->
    job ws (Some (SAppend2, f)) (allfin (media_groups ws0)) None
      [Some (Appending (N.of_nat (length (media_groups ws0))))]
| JPart k ws0 f pre l : ws = ws0 ++ [f] -> media_groups ws = pre ++ [l ++ [f]] -> In k [SCreate; SHeader; SPayload; SEnd] ->
    job ws (Some (k, f)) (allfin pre ++ [(l, part k f, false)]) (Some (length pre)) [Some Idle].

Definition latest_of (n : nat) : option group :=
  match n with 0 => None | S k => Some (Group (N.of_nat k) k) end.

Record tshape (n : nat) (prods : list (option tprod)) (t : tsys) : Prop := {
  tw_latest : ts_latest t = latest_of n;
  tw_closed : ts_closed t = None;
  tw_prods : ts_prods t = prods;
  tw_guards : ts_guards t = 0 }.

(** A reader: where it is in its group, and what it has returned. *)
Record rok (shapes : list shape) (groups : list gsys) (tr : list mevent) (r : nat) (rd : mreader) : Prop := {
  rk_cons : mr_cons rd <> 0;
  rk_group : exists fs p fin g, nth_error shapes (mr_group rd) = Some (fs, p, fin) /\
    nth_error groups (mr_group rd) = Some g /\
    (get (gs_cons g) (mr_cons rd) = Some (GC (mr_index rd) None) \/
     (get (gs_cons g) (mr_cons rd) = Some (GC (S (mr_index rd)) (Some (mr_index rd, 0))) /\
      mr_index rd < length (gs_heap g))) /\
    mr_index rd <= length fs /\ read_by r tr = firstn (mr_index rd) (seen_from 0 fs) }.

Record minv (w : N) (s : msys) (tr : list mevent) (shapes : list shape) : Prop := {
  mi_groups : Forall2 gshape shapes (ms_groups s);
  mi_job : exists prods, job (written tr) (ms_job s) shapes (ms_cur s) prods /\ tshape (length (ms_groups s)) prods (ms_track s);
  mi_readers : forall r rd, nth_error (ms_readers s) r = Some rd -> rok shapes (ms_groups s) tr r rd;
  mi_names : Forall2 (fun rd gr => g_id gr = mr_group rd /\ g_seq gr = N.of_nat (mr_group rd)) (ms_readers s) (reader_groups tr);
  mi_unread : forall r, length (ms_readers s) <= r -> read_by r tr = [];
  mi_distinct : forall r r' a b, nth_error (ms_readers s) r = Some a -> nth_error (ms_readers s) r' = Some b ->
    mr_group a = mr_group b -> mr_cons a = mr_cons b -> r = r' }.

Lemma minv_new w : minv w msys_new [] [].
Proof.
  split; cbn; auto.
  - exists [Some Idle]. split; [constructor; auto|]. split; reflexivity.
  - intros [|r] rd; discriminate.
  - intros [|r] r' a b; discriminate.
Qed.

(** Projections of the trace *)
Lemma written_snoc tr e : written (tr ++ [e]) = written tr ++ written [e].
Proof. unfold written. rewrite flat_map_app. reflexivity. Qed.
Lemma reader_groups_snoc tr e : reader_groups (tr ++ [e]) = reader_groups tr ++ reader_groups [e].
Proof. unfold reader_groups. rewrite flat_map_app. reflexivity. Qed.
Lemma read_by_snoc r tr e : read_by r (tr ++ [e]) = read_by r tr ++ read_by r [e].
Proof. unfold read_by. rewrite flat_map_app. reflexivity. Qed.

Lemma seen_from_app i a b : seen_from i (a ++ b) = seen_from i a ++ seen_from (i + length a) b.
Proof.
  revert i; induction a as [|x a IH]; intros i; cbn.
  - rewrite Nat.add_0_r. reflexivity.
  - rewrite IH. do 3 f_equal. lia.
Qed.
Lemma seen_from_length i a : length (seen_from i a) = length a.
Proof. revert i; induction a; intros; cbn; auto. Qed.
Lemma seen_from_nth i a n f : nth_error a n = Some f -> nth_error (seen_from i a) n = Some (seen (i + n) f).
Proof.
  revert i n; induction a as [|x a IH]; intros i [|n] H; cbn in *; try discriminate.
  - injection H as ->. rewrite Nat.add_0_r. reflexivity.
  - rewrite (IH _ _ H). do 2 f_equal. lia.
Qed.
Lemma firstn_seen n a b : n <= length a -> firstn n (seen_from 0 (a ++ b)) = firstn n (seen_from 0 a).
Proof.
  intros H. rewrite seen_from_app, firstn_app, seen_from_length.
  replace (n - length a) with 0 by lia. cbn. apply app_nil_r.
Qed.

Lemma firstn_snoc {A} n (l : list A) x : nth_error l n = Some x -> firstn (S n) l = firstn n l ++ [x].
Proof.
  revert n; induction l as [|y l IH]; intros [|n] H; cbn in *; try discriminate.
  - injection H as ->. reflexivity.
  - f_equal. auto.
Qed.

(** Readers are unaffected by what keeps their groups' consumers and only adds frames. *)
Definition sh_frames (sh : shape) : list mframe := fst (fst sh).
Lemma rok_ext shapes groups tr r rd shapes' groups' tr' :
  rok shapes groups tr r rd ->
  (forall j g, nth_error groups j = Some g -> exists g', nth_error groups' j = Some g' /\
     (forall c x, c <> 0 -> get (gs_cons g) c = Some x -> get (gs_cons g') c = Some x) /\
     length (gs_heap g) <= length (gs_heap g')) ->
  (forall j sh, nth_error shapes j = Some sh -> exists sh' more, nth_error shapes' j = Some sh' /\
     sh_frames sh' = sh_frames sh ++ more) ->
  read_by r tr' = read_by r tr ->
  rok shapes' groups' tr' r rd.
Proof.
  intros [C (fs & p & fin & g & Hs & Hg & Hc & Hn & Hr)] HG HS HT.
  destruct (HG _ _ Hg) as (g' & Eg & Ec & El). destruct (HS _ _ Hs) as ([[fs' p'] fin'] & more & Es & Ef).
  cbn in Ef. subst fs'. split; auto. exists (fs ++ more), p', fin', g'. repeat split; auto.
  - destruct Hc as [Hc|[Hc L]]; [left; auto|right]. split; [auto|lia].
  - rewrite app_length. lia.
  - rewrite HT, firstn_seen; auto.
Qed.

(** * Steps on a group of known shape *)
Lemma set_last {A} (l : list A) x y : set_nth (length l) y (l ++ [x]) = l ++ [y].
Proof. induction l; cbn; [auto|f_equal; auto]. Qed.
Lemma nth_last {A} (l : list A) x : nth_error (l ++ [x]) (length l) = Some x.
Proof. rewrite nth_error_app2 by lia. rewrite Nat.sub_diag. reflexivity. Qed.

Lemma seq_snoc n : map (fun i => (i, 0)) (seq 0 (S n)) = map (fun i => (i, 0)) (seq 0 n) ++ [(n, 0)].
Proof. rewrite seq_S, map_app. reflexivity. Qed.

Lemma shape_finish w l g : gshape (l, [], false) g ->
  exists g', gsteps w g [GFinish 0] = (g', true) /\ gshape (l, [], true) g' /\ gs_cons g' = gs_cons g.
Proof.
  destruct g as [heap frames closed prods guards cons]. unfold gshape. cbn. intros (H & F & C & P & G & K).
  subst prods. cbn. eexists. split; [reflexivity|]. cbn. repeat split; auto.
Qed.

Lemma shape_create w l f g : gshape (l, [], false) g -> 
  exists g', gsteps w g (create_frame 0 (length (gs_heap g)) (media_size f)) = (g', true) /\
    gshape (l, part SHeader f, false) g' /\ gs_cons g' = gs_cons g.
Proof.
  destruct g as [heap frames closed prods guards cons]. unfold gshape. cbn [gs_heap gs_frames gs_closed gs_prods gs_guards gs_cons].
  intros (H & F & C & P & G & K). subst closed prods. rewrite app_nil_r in H.
  unfold create_frame. cbn. rewrite nth_last. cbn. rewrite set_last, nth_last. cbn.
  eexists. split; [reflexivity|]. cbn. rewrite set_last. repeat split; auto.
  - rewrite H. reflexivity.
  - rewrite app_length. cbn. rewrite Nat.add_1_r, seq_snoc, <- F. reflexivity.
Qed.

Lemma last_frame_part l x g : gs_heap g = map full l ++ [x] -> last_frame g = length (map full l).
Proof. intros H. unfold last_frame. rewrite H, app_length. cbn. lia. Qed.

Lemma size_mod w f : in_range w f -> (media_size f mod 2 ^ w = media_size f)%N.
Proof. intros R. destruct (header_ok f w R) as (_ & L & _). apply N.mod_small. auto. Qed.

Lemma shape_header w l f g : in_range w f -> gshape (l, part SHeader f, false) g ->
  exists g', gsteps w g [GFrame (last_frame g) (FWrite 0 (header_of f))] = (g', true) /\
    gshape (l, part SPayload f, false) g' /\ gs_cons g' = gs_cons g.
Proof.
  intros R S. pose proof S as (H & F & C & P & G & K). cbn [part] in H. cbn [gsteps gstep].
  rewrite (last_frame_part _ _ _ H), H, nth_last. cbn. rewrite size_mod by auto.
  destruct (len (header_of f) <=? media_size f)%N eqn:E.
  - cbn. eexists. split; [reflexivity|]. cbn. rewrite set_last. repeat split; auto.
    rewrite H in F. rewrite F, !app_length. reflexivity.
  - apply N.leb_gt in E. unfold media_size in E. lia.
Qed.

Lemma shape_payload w l f g : in_range w f -> gshape (l, part SPayload f, false) g ->
  exists g', gsteps w g [GFrame (last_frame g) (FWrite 0 (mf_data f))] = (g', true) /\
    gshape (l, part SEnd f, false) g' /\ gs_cons g' = gs_cons g.
Proof.
  intros R S. pose proof S as (H & F & C & P & G & K). cbn [part] in H. cbn [gsteps gstep].
  rewrite (last_frame_part _ _ _ H), H, nth_last. cbn. rewrite size_mod by auto.
  destruct (len (header_of f) + len (mf_data f) <=? media_size f)%N eqn:E.
  - cbn. eexists. split; [reflexivity|]. cbn. rewrite set_last. repeat split; auto.
    rewrite H in F. rewrite F, !app_length. reflexivity.
  - apply N.leb_gt in E. unfold media_size in E. lia.
Qed.

Lemma shape_end w l f g : in_range w f -> gshape (l, part SEnd f, false) g ->
  exists g', gsteps w g [GFrame (last_frame g) (FFinish 0)] = (g', true) /\
    gshape (l ++ [f], [], false) g' /\ gs_cons g' = gs_cons g.
Proof.
  intros R S. pose proof S as (H & F & C & P & G & K). cbn [part] in H. cbn [gsteps gstep].
  rewrite (last_frame_part _ _ _ H), H, nth_last. cbn. unfold frame_finish. rewrite size_mod by auto.
  rewrite N.eqb_refl. cbn. eexists. split; [reflexivity|]. cbn. rewrite set_last. rewrite H in F. repeat split; auto.
  - rewrite map_app, app_nil_r. reflexivity.
  - rewrite F, !app_length. reflexivity.
Qed.

Lemma Forall2_length {A B} (R : A -> B -> Prop) l m : Forall2 R l m -> length l = length m.
Proof. induction 1; cbn; auto. Qed.

Lemma Forall2_set_r {A B} (R : A -> B -> Prop) l m n a b :
  Forall2 R l m -> nth_error l n = Some a -> R a b -> Forall2 R l (set_nth n b m).
Proof. intros H; revert n; induction H; intros [|n] Hn Hr; cbn in *; try congruence; auto.
  injection Hn as ->. auto. Qed.

Lemma Forall2_last {A B} (R : A -> B -> Prop) pre x l :
  Forall2 R (pre ++ [x]) l -> exists l0 y, l = l0 ++ [y] /\ Forall2 R pre l0 /\ R x y /\ length l0 = length pre.
Proof.
  intros H. apply Forall2_app_inv_l in H as (l0 & l1 & H0 & H1 & ->).
  inversion H1 as [|? y ? t Hy Ht]; subst. inversion Ht; subst. exists l0, y. repeat split; auto.
  symmetry. eapply Forall2_length; eauto.
Qed.

Lemma on_group_last w s pre sh sh' ops cur j :
  Forall2 gshape (pre ++ [sh]) (ms_groups s) -> ms_cur s = Some (length pre) ->
  (forall g, gshape sh g -> exists g', gsteps w g (ops g) = (g', true) /\ gshape sh' g' /\ gs_cons g' = gs_cons g) ->
  (exists more, sh_frames sh' = sh_frames sh ++ more) ->
  exists groups', on_group w s ops cur j = (mwith_job (mwith_cur (mwith_groups s groups') cur) j, MUnit) /\
    Forall2 gshape (pre ++ [sh']) groups' /\ length groups' = length (ms_groups s) /\
    (forall i g, nth_error (ms_groups s) i = Some g -> exists g', nth_error groups' i = Some g' /\ gs_cons g' = gs_cons g).
Proof.
  intros H C O M. apply Forall2_last in H as (l0 & g & E & H0 & Hg & L).
  unfold on_group. rewrite C, E, <- L, nth_last.
  destruct (O g Hg) as (g' & Eo & S' & Ec). rewrite Eo, set_last.
  exists (l0 ++ [g']). repeat split; auto.
  - apply Forall2_app; auto.
  - rewrite !app_length. reflexivity.
  - intros i x Hi. destruct (Nat.lt_ge_cases i (length l0)).
    + rewrite nth_error_app1 in * by lia. eauto.
    + destruct (Nat.eq_dec i (length l0)) as [->|N].
      * rewrite nth_last in *. injection Hi as <-. eauto.
      * assert (i < length (l0 ++ [g])) by (apply nth_error_Some; congruence). rewrite app_length in *; cbn in *; lia.
Qed.

Lemma shape_heap_le sh sh' g g' : gshape sh g -> gshape sh' g' ->
  length (sh_frames sh ++ []) + length (snd (fst sh)) <= length (sh_frames sh') + length (snd (fst sh')) ->
  length (gs_heap g) <= length (gs_heap g').
Proof.
  destruct sh as [[fs p] fin], sh' as [[fs' p'] fin']. intros (H & _) (H' & _). cbn.
  rewrite H, H', !app_length, !map_length. cbn. lia.
Qed.

Lemma job_written ws j sh cur pr : job ws j sh cur pr -> match j with Some (_, f) => In f ws | None => True end.
Proof. intros []; auto; subst ws; apply in_app_iff; right; left; auto. Qed.

(** A step of the writer keeps the readers. *)
Lemma minv_writer w s tr pre sh sh' groups' job' cur' o :
  minv w s tr (pre ++ [sh]) -> Forall2 gshape (pre ++ [sh']) groups' -> length groups' = length (ms_groups s) ->
  (forall i g, nth_error (ms_groups s) i = Some g -> exists g', nth_error groups' i = Some g' /\ gs_cons g' = gs_cons g) ->
  (exists more, sh_frames sh' = sh_frames sh ++ more) ->
  length (sh_frames sh ++ []) + length (snd (fst sh)) <= length (sh_frames sh') + length (snd (fst sh')) ->
  o = MStep ->
  (exists prods, job (written tr) job' (pre ++ [sh']) cur' prods /\ tshape (length (ms_groups s)) prods (ms_track s)) ->
  minv w (mwith_job (mwith_cur (mwith_groups s groups') cur') job') (tr ++ [(o, MUnit)]) (pre ++ [sh']).
Proof.
  intros I G L Ng (more & M) Hl -> (prods' & J & T). destruct I as [Ig (prods & Ij & It) Ir In Iu Id].
  split; cbn [ms_track ms_groups ms_cur ms_job ms_readers mwith_job mwith_cur mwith_groups]; auto.
  - exists prods'. rewrite written_snoc. cbn. rewrite app_nil_r, L. auto.
  - intros r rd Hr. eapply rok_ext; [apply Ir; eauto| | |].
    + intros i g Hg. destruct (Ng i g Hg) as (g' & Hg' & Ec). exists g'. split; auto. split; [rewrite Ec; auto|].
      destruct (nth_error (pre ++ [sh]) i) as [x|] eqn:Ex.
      * destruct (nth_error (pre ++ [sh']) i) as [x'|] eqn:Ex'.
        -- eapply shape_heap_le; [eapply Forall2_nth_error; [exact Ig| |]; eauto|eapply Forall2_nth_error; [exact G| |]; eauto|].
           destruct (Nat.lt_ge_cases i (length pre)).
           ++ rewrite nth_error_app1 in * by lia. rewrite Ex in Ex'. injection Ex' as <-. rewrite app_nil_r. lia.
           ++ rewrite nth_error_app2 in * by lia. destruct (i - length pre) as [|k]; cbn in *.
              ** injection Ex as <-. injection Ex' as <-. exact Hl.
              ** destruct k; discriminate.
        -- exfalso. apply nth_error_None in Ex'. assert (i < length (pre ++ [sh])) by (apply nth_error_Some; congruence).
           rewrite app_length in *. cbn in *. lia.
      * exfalso. apply nth_error_None in Ex. rewrite (Forall2_length _ _ _ Ig) in Ex.
        apply nth_error_None in Ex. congruence.
    + intros i x Hx. destruct (Nat.lt_ge_cases i (length pre)).
      * rewrite nth_error_app1 in * by lia. exists x, []. split; auto. rewrite app_nil_r. auto.
      * rewrite nth_error_app2 in * by lia. destruct (i - length pre) as [|k]; cbn in *.
        -- injection Hx as <-. eauto.
        -- destruct k; discriminate.
    + rewrite read_by_snoc. cbn. apply app_nil_r.
  - rewrite reader_groups_snoc. cbn. rewrite app_nil_r. auto.
  - intros r Hr. rewrite read_by_snoc. cbn. rewrite app_nil_r. auto.
Qed.

Lemma job_nil_app {A} (l : list A) x : [] = l ++ [x] -> False.
Proof. destruct l; discriminate. Qed.

Lemma step_writer w m s tr shapes : minv w s tr shapes ->
  Forall (in_range w) (written tr) -> (N.of_nat (length (media_groups (written tr))) < 2 ^ 64)%N ->
  ms_job s <> None ->
  exists s' shapes', mstep w m s MStep = (s', MUnit) /\ minv w s' (tr ++ [(MStep, MUnit)]) shapes'.
Proof.
  intros I R N64 J0. pose proof I as [Ig (prods & Ij & It) Ir In Iu Id].
  cbn [mstep]. inversion Ij as [E0 Ej Esh Ec Ep|pre l E0 Ej Esh Ec Ep|ws0 f pre l E0 K Em Ej Esh Ec Ep
    |ws0 f E0 Em Ej Esh Ec Ep|ws0 f E0 Em Ej Esh Ec Ep|k ws0 f pre l E0 Em Hk Ej Esh Ec Ep]; try congruence.
  - (* finish *)
    symmetry in Ej, Ec. subst shapes prods. cbn [mwrite].
    destruct (on_group_last w s (allfin pre) (l, [], false) (l, [], true) (fun _ => [GFinish 0]) None (Some (SAppend1, f)))
      as (groups' & E & G & L & Ng); auto.
    { rewrite Ec. unfold allfin. rewrite map_length. reflexivity. }
    { apply shape_finish. } { exists []. cbn. rewrite app_nil_r. auto. }
    rewrite E. eexists _, _. split; [reflexivity|].
    eapply minv_writer; eauto. { exists []. cbn. rewrite app_nil_r. auto. } { cbn. rewrite app_nil_r. lia. }
    exists [Some Idle]. split; auto.
    assert (Ea : allfin pre ++ [(l, [], true)] = allfin (media_groups ws0))
      by (rewrite Em; unfold allfin; rewrite map_app; reflexivity).
    enough (X : job (written tr) (Some (SAppend1, f)) (allfin (media_groups ws0)) None [Some Idle])
      by (rewrite <- Ea in X; exact X).
    apply JApp1; auto. rewrite E0, media_groups_snoc, Em, add_media_key; auto.
  - (* append, first half *)
    symmetry in Ej, Ec. subst shapes prods. cbn [mwrite].
    destruct It as [T1 T2 T3 T4]. unfold tstep, idle. rewrite T3. cbn [get nth_error].
    assert (Ln : length (ms_groups s) = length (media_groups ws0)).
    { rewrite <- (Forall2_length _ _ _ Ig). unfold allfin. apply map_length. }
    assert (Es : append_seq m (ts_latest (ms_track s)) = Val (N.of_nat (length (media_groups ws0)))).
    { rewrite T1, Ln. rewrite Em, app_length in N64. cbn in N64.
      destruct (length (media_groups ws0)) as [|n]; cbn [latest_of append_seq]; [reflexivity|].
      cbn [g_seq]. destruct (N.of_nat n + 1 <? 2 ^ 64)%N eqn:E; [f_equal; lia|].
      apply N.ltb_ge in E. lia. }
    rewrite Es. cbn [mwith_track set_nth]. eexists _, (allfin (media_groups ws0)). split; [reflexivity|].
    split; cbn [ms_track ms_groups ms_cur ms_job ms_readers mwith_job mwith_track]; auto.
    + eexists. rewrite written_snoc. cbn. rewrite app_nil_r, Ec. split; [apply JApp2; auto|].
      rewrite Ln in *. split; cbn; auto.
    + intros r rd Hr. eapply rok_ext; [apply Ir; eauto| | |].
      * intros j g Hg. exists g. auto.
      * intros j x Hx. exists x, []. rewrite app_nil_r. auto.
      * rewrite read_by_snoc. cbn. apply app_nil_r.
    + rewrite reader_groups_snoc. cbn. rewrite app_nil_r. auto.
    + intros r Hr. rewrite read_by_snoc. cbn. rewrite app_nil_r. auto.
  - (* append, second half *)
    symmetry in Ej, Ec. subst shapes prods. cbn [mwrite].
    destruct It as [T1 T2 T3 T4]. unfold tstep. rewrite T3. cbn [get nth_error].
    assert (Ln : length (ms_groups s) = length (media_groups ws0)).
    { rewrite <- (Forall2_length _ _ _ Ig). unfold allfin. apply map_length. }
    cbn [twith_prods ts_latest ts_closed]. rewrite T1, T2, Ln.
    assert (Et : track_insert (Group (N.of_nat (length (media_groups ws0))) (length (media_groups ws0)))
              (latest_of (length (media_groups ws0))) None
            = Val (true, latest_of (S (length (media_groups ws0))))).
    { unfold track_insert. destruct (length (media_groups ws0)) as [|n]; cbn [latest_of]; [reflexivity|].
      cbn [g_seq]. destruct (N.of_nat n <? N.of_nat (S n))%N eqn:E; [reflexivity|]. apply N.ltb_ge in E. lia. }
    rewrite Et. cbn [mwith_track ms_groups]. eexists _, (allfin (media_groups ws0) ++ [([], [], false)]). split; [reflexivity|].
    split; cbn [ms_track ms_groups ms_cur ms_job ms_readers mwith_job mwith_track mwith_cur mwith_groups]; auto.
    + apply Forall2_app; auto. constructor; auto. cbn. repeat split; auto.
    + exists [Some Idle]. rewrite written_snoc. cbn. rewrite app_nil_r. split.
      * apply (JPart _ SCreate ws0); auto. cbn. auto.
      * rewrite app_length, Ln. cbn. rewrite Nat.add_1_r. split; cbn; auto.
    + intros r rd Hr. eapply rok_ext; [apply Ir; eauto| | |].
      * intros j g Hg. exists g. rewrite nth_error_app1 by (apply nth_error_Some; congruence). auto.
      * intros j x Hx. exists x, []. rewrite app_nil_r, nth_error_app1 by (apply nth_error_Some; congruence). auto.
      * rewrite read_by_snoc. cbn. apply app_nil_r.
    + rewrite reader_groups_snoc. cbn. rewrite app_nil_r. auto.
    + intros r Hr. rewrite read_by_snoc. cbn. rewrite app_nil_r. auto.
  - (* on the current group *)
    symmetry in Ej, Ec. subst shapes prods. 
    assert (Rf : in_range w f) by (rewrite Forall_forall in R; apply R; rewrite E0; apply in_app_iff; right; left; auto).
    assert (Ec' : ms_cur s = Some (length (allfin pre))) by (rewrite Ec; unfold allfin; rewrite map_length; reflexivity).
    assert (Step : forall ops job' sh', mwrite w m s k f = on_group w s ops (ms_cur s) job' ->
      (forall g, gshape (l, part k f, false) g -> exists g', gsteps w g (ops g) = (g', true) /\ gshape sh' g' /\ gs_cons g' = gs_cons g) ->
      (exists more, sh_frames sh' = l ++ more) ->
      (length (l ++ []) + length (part k f) <= length (sh_frames sh') + length (snd (fst sh'))) ->
      (job (written tr) job' (allfin pre ++ [sh']) (Some (length pre)) [Some Idle]) ->
      exists s' shapes', mwrite w m s k f = (s', MUnit) /\ minv w s' (tr ++ [(MStep, MUnit)]) shapes').
    { intros ops job' sh' Ew O M L J'.
      destruct (on_group_last w s (allfin pre) (l, part k f, false) sh' ops (ms_cur s) job') as (groups' & E & G & Lg & Ng); auto.
      rewrite Ew, E. eexists _, _. split; [reflexivity|]. eapply minv_writer; eauto.
      rewrite Ec. eauto. }
    cbn in Hk. destruct Hk as [<-|[<-|[<-|[<-|[]]]]]; (eapply Step; [reflexivity|..]).
    + intros g Hg. apply shape_create; exact Hg.
    + exists []. cbn. rewrite app_nil_r. auto.
    + cbn. rewrite app_nil_r. lia.
    + eapply JPart; eauto; cbn; auto.
    + intros g Hg. apply (shape_header _ _ _ _ Rf Hg).
    + exists []. cbn. rewrite app_nil_r. auto.
    + cbn. rewrite app_nil_r. lia.
    + eapply JPart; eauto; cbn; auto.
    + intros g Hg. apply (shape_payload _ _ _ _ Rf Hg).
    + exists []. cbn. rewrite app_nil_r. auto.
    + cbn. rewrite app_nil_r. lia.
    + eapply JPart; eauto; cbn; auto.
    + intros g Hg. apply (shape_end _ _ _ _ Rf Hg).
    + exists [f]. reflexivity.
    + cbn. rewrite app_nil_r, app_length. cbn. lia.
    + apply JIdle; auto.
Qed.

(** The shapes are the groups written so far, each up to the write in progress. *)
Lemma nth_error_split2 {A} (l : list A) x i y : nth_error (l ++ [x]) i = Some y ->
  (i < length l /\ nth_error l i = Some y) \/ (i = length l /\ y = x).
Proof.
  intros H. destruct (Nat.lt_ge_cases i (length l)).
  - rewrite nth_error_app1 in H by lia. auto.
  - rewrite nth_error_app2 in H by lia. destruct (i - length l) as [|k] eqn:E; cbn in H.
    + injection H as <-. right. split; auto. lia.
    + destruct k; discriminate.
Qed.

Lemma allfin_nth gs i sh : nth_error (allfin gs) i = Some sh -> exists l, nth_error gs i = Some l /\ sh = (l, [], true).
Proof.
  unfold allfin. rewrite nth_error_map. destruct (nth_error gs i) as [l|]; [|discriminate].
  intros H. injection H as <-. eauto.
Qed.
Lemma allfin_length gs : length (allfin gs) = length gs.
Proof. apply map_length. Qed.

Lemma job_prefix ws j shapes cur prods i fs p fin : job ws j shapes cur prods -> nth_error shapes i = Some (fs, p, fin) ->
  exists l more, nth_error (media_groups ws) i = Some l /\ l = fs ++ more /\ (p = [] \/ exists k f, In k [SHeader; SPayload; SEnd] /\ p = part k f).
Proof.
  intros J H. destruct J as [E|pre l E|ws0 f pre l E K Em|ws0 f E Em|ws0 f E Em|k ws0 f pre l E Em Hk].
  - destruct i; discriminate.
  - rewrite E. apply nth_error_split2 in H as [[L H]|[-> H]].
    + apply allfin_nth in H as (l0 & Hl & E0). injection E0 as -> -> ->.
      exists l0, []. rewrite app_nil_r, nth_error_app1 by (rewrite allfin_length in L; lia). auto.
    + injection H as -> -> ->. exists l, []. rewrite app_nil_r, allfin_length, nth_last. auto.
  - rewrite E, media_groups_snoc, Em, add_media_key by auto.
    apply nth_error_split2 in H as [[L H]|[-> H]].
    + rewrite allfin_length in L. apply allfin_nth in H as (l0 & Hl & E0). injection E0 as -> -> ->.
      exists l0, []. rewrite app_nil_r, !nth_error_app1 by (rewrite ?app_length; lia). auto.
    + injection H as -> -> ->. exists l, []. rewrite allfin_length, app_nil_r, nth_error_app1, nth_last by (rewrite app_length; cbn; lia). auto.
  - rewrite Em. apply allfin_nth in H as (l0 & Hl & E0). injection E0 as -> -> ->.
    exists l0, []. rewrite app_nil_r, nth_error_app1 by (apply nth_error_Some; congruence). auto.
  - rewrite Em. apply allfin_nth in H as (l0 & Hl & E0). injection E0 as -> -> ->.
    exists l0, []. rewrite app_nil_r, nth_error_app1 by (apply nth_error_Some; congruence). auto.
  - rewrite Em. apply nth_error_split2 in H as [[L H]|[-> H]].
    + apply allfin_nth in H as (l0 & Hl & E0). injection E0 as -> -> ->.
      exists l0, []. rewrite app_nil_r, nth_error_app1 by (rewrite allfin_length in L; lia). auto.
    + injection H as -> -> ->. exists (l ++ [f]), [f]. rewrite allfin_length, nth_last.
      split; [auto|]. split; [auto|]. cbn in Hk. destruct Hk as [<-|Hk]; [left; reflexivity|].
      right. exists k, f. split; auto.
Qed.

Lemma groups_in_range w ws i l f : Forall (in_range w) ws -> nth_error (media_groups ws) i = Some l -> In f l -> in_range w f.
Proof.
  intros R H F. rewrite Forall_forall in R. apply R. destruct (media_groups_cut ws) as (C & _). rewrite <- C.
  apply in_concat. exists l. split; auto. eapply nth_error_In; eauto.
Qed.

(** * Reading *)
Definition read_result (fs : list mframe) (p : list fsys) (fin : bool) (n : nat) : mout :=
  match nth_error (seen_from 0 fs) n with
  | Some f => MGot (AOk (Some f))
  | None => match p with [] => if fin then MGot (AOk None) else MGot APending | _ => MGot APending end
  end.

Lemma group_read_shape fs p fin g n x :
  gshape (fs, p, fin) g -> (p = [] \/ exists k f, In k [SHeader; SPayload; SEnd] /\ p = part k f) ->
  (x = GC n None \/ (x = GC (S n) (Some (n, 0)) /\ n < length (gs_heap g))) -> n <= length fs ->
  exists a y, group_read (gsys_alive g) (gs_heap g) (gs_frames g) (gs_closed g) x = Val (a, y) /\
  match nth_error fs n with
  | Some f => a = AOk (Some (header_of f ++ mf_data f)) /\ y = GC (S n) None
  | None => match p with
            | [] => (a = if fin then AOk None else APending) /\ y = GC n None
            | _ => a = APending /\ y = GC (S n) (Some (n, 0)) /\ n < length (gs_heap g)
            end
  end.
Proof.
  intros (H & F & C & P & G & K) Hp Hx Hn.
  assert (Fn : nth_error (gs_frames g) n = if Nat.ltb n (length (gs_heap g)) then Some (n, 0) else None).
  { rewrite F. destruct (Nat.ltb_spec n (length (gs_heap g))).
    - rewrite nth_error_map. rewrite (nth_error_nth' (seq 0 (length (gs_heap g))) 0) by (rewrite seq_length; lia).
      rewrite seq_nth by lia. reflexivity.
    - apply nth_error_None. rewrite map_length, seq_length. lia. }
  assert (Pre : forall (Q : await (option bytes) -> gcons -> Prop), n < length (gs_heap g) ->
    (exists a y, match nth_error (gs_heap g) n with
     | None => Panic
     | Some fs0 => match frame_read_all (fsys_alive fs0) 0 (sy_state fs0) with
       | Panic => Panic
       | Val (AOk b, _) => Val (AOk (Some b), GC (S n) None)
       | Val (AErr e, i) => Val (AErr e, GC (S n) (Some (n, i)))
       | Val (APending, i) => Val (APending, GC (S n) (Some (n, i)))
       | Val (AFuel, i) => Val (AFuel, GC (S n) (Some (n, i)))
       end end = Val (a, y) /\ Q a y) ->
    exists a y, group_read (gsys_alive g) (gs_heap g) (gs_frames g) (gs_closed g) x = Val (a, y) /\ Q a y).
  { intros Q L (a & y & E & HQ). exists a, y. split; auto. rewrite <- E. unfold group_read.
    destruct Hx as [->|[-> _]]; cbn [gc_active gc_index group_next].
    - unfold group_next. cbn [gc_active gc_index]. rewrite Fn. destruct (Nat.ltb_spec n (length (gs_heap g))); [|lia].
      reflexivity.
    - reflexivity. }
  assert (Lh : length (gs_heap g) = length fs + length p) by (rewrite H, app_length, map_length; reflexivity).
  destruct (nth_error fs n) as [f|] eqn:En.
  - assert (Ln : n < length fs) by (apply nth_error_Some; congruence). apply Pre; [lia|].
    rewrite H, nth_error_app1 by (rewrite map_length; lia). rewrite nth_error_map, En. cbn.
    eexists _, _. split; [reflexivity|]. rewrite app_nil_r. auto.
  - apply nth_error_None in En. assert (n = length fs) by lia. subst n.
    destruct p as [|fp p'].
    + cbn in Lh. exists (if fin then AOk None else APending), (GC (length fs) None).
      destruct Hx as [->|[_ L]]; [|lia]. unfold group_read, group_next. cbn [gc_active gc_index]. rewrite Fn.
      destruct (Nat.ltb_spec (length fs) (length (gs_heap g))); [lia|]. rewrite C. unfold gsys_alive. rewrite P.
      destruct fin; cbn; auto.
    + apply Pre; [cbn in Lh; lia|]. destruct Hp as [Hp|(k & f & Hk & Hp)]; [discriminate|].
      rewrite H, nth_error_app2 by (rewrite map_length; lia). rewrite map_length, Nat.sub_diag. cbn [nth_error].
      assert (L : length fs < length (gs_heap g)) by (cbn in Lh; lia). rewrite <- H.
      cbn in Hk. destruct Hk as [<-|[<-|[<-|[]]]]; cbn in Hp; injection Hp as -> ->; cbn; eexists _, _; repeat split; auto.
Qed.

Lemma get_some_ne {A} (t : table A) c c' x : c <> c' -> get (set_nth c x t) c' = get t c'.
Proof. apply get_set_ne. Qed.

Lemma step_read w m s tr shapes r rd : minv w s tr shapes -> Forall (in_range w) (written tr) ->
  nth_error (ms_readers s) r = Some rd ->
  exists s' fs p fin l more, nth_error shapes (mr_group rd) = Some (fs, p, fin) /\
    nth_error (media_groups (written tr)) (mr_group rd) = Some l /\ l = fs ++ more /\
    mstep w m s (MRead r) = (s', read_result fs p fin (length (read_by r tr))) /\
    minv w s' (tr ++ [(MRead r, read_result fs p fin (length (read_by r tr)))]) shapes.
Proof.
  intros I R Hr. pose proof I as [Ig (prods & Ij & It) Ir In Iu Id].
  destruct (Ir r rd Hr) as [C0 (fs & p & fin & g & Hs & Hg & Hc & Hn & Hread)].
  destruct (job_prefix _ _ _ _ _ _ _ _ _ Ij Hs) as (l & more & Hl & El & Hp).
  assert (Sg : gshape (fs, p, fin) g) by (eapply Forall2_nth_error; eauto).
  assert (Hx : exists x, get (gs_cons g) (mr_cons rd) = Some x /\
     (x = GC (mr_index rd) None \/ (x = GC (S (mr_index rd)) (Some (mr_index rd, 0)) /\ mr_index rd < length (gs_heap g)))).
  { destruct Hc as [Hc|[Hc L]]; eauto. }
  destruct Hx as (x & Hc' & Hx).
  destruct (group_read_shape fs p fin g (mr_index rd) x Sg Hp Hx Hn) as (a & y & Er & Hres).
  set (g' := gwith_cons g (set_nth (mr_cons rd) (Some y) (gs_cons g))).
  set (groups' := set_nth (mr_group rd) g' (ms_groups s)).
  assert (Lr : length (read_by r tr) = mr_index rd).
  { rewrite Hread, firstn_length, seen_from_length. lia. }
  assert (Lj : mr_group rd < length (ms_groups s)) by (apply nth_error_Some; congruence).
  assert (Sg' : gshape (fs, p, fin) g').
  { destruct Sg as (A1 & A2 & A3 & A4 & A5 & A6). cbn. repeat split; auto. rewrite get_set_ne by auto. auto. }
  assert (G' : Forall2 gshape shapes groups') by (eapply Forall2_set_r; eauto).
  (* the other readers *)
  assert (Other : forall r' rd' o, r' <> r -> nth_error (ms_readers s) r' = Some rd' ->
     read_by r' [(MRead r, o)] = [] -> rok shapes groups' (tr ++ [(MRead r, o)]) r' rd').
  { intros r' rd' o Nr Hr' He. destruct (Ir r' rd' Hr') as [C1 (fs1 & p1 & fin1 & g1 & Hs1 & Hg1 & Hc1 & Hn1 & Hread1)].
    split; auto. destruct (Nat.eq_dec (mr_group rd') (mr_group rd)) as [Eg|Ng].
    - rewrite Eg in *. rewrite Hg in Hg1. injection Hg1 as <-. rewrite Hs in Hs1. injection Hs1 as <- <- <-.
      exists fs, p, fin, g'. rewrite Hs. split; auto. split; [apply nth_error_set_eq; auto|].
      assert (Nc : mr_cons rd <> mr_cons rd') by (intros E; apply Nr; eapply Id; eauto).
      cbn [g' gwith_cons gs_cons gs_heap]. rewrite get_set_ne by auto. split; auto. split; auto.
      rewrite read_by_snoc, He, app_nil_r. auto.
    - exists fs1, p1, fin1, g1. split; auto. split; [unfold groups'; rewrite nth_error_set_ne by auto; auto|].
      split; auto. split; auto. rewrite read_by_snoc, He, app_nil_r. auto. }
  exists (match nth_error fs (mr_index rd) with
     | Some f => mwith_readers (mwith_groups s groups')
                   (set_nth r (MReader (mr_group rd) (mr_cons rd) (S (mr_index rd))) (ms_readers s))
     | None => mwith_groups s groups' end), fs, p, fin, l, more.
  repeat (split; [assumption|]).
  cbn [mstep]. rewrite Hr, Hg. cbn [gstep]. rewrite Hc', Er. fold g'. fold groups'.
  unfold read_result. rewrite Lr. destruct (nth_error fs (mr_index rd)) as [f|] eqn:En.
  - destruct Hres as [-> ->]. rewrite (seen_from_nth _ _ _ _ En).
    assert (Rf : in_range w f).
    { eapply groups_in_range; eauto. rewrite El. apply in_app_iff. left. eapply nth_error_In; eauto. }
    destruct (header_ok f w Rf) as (_ & _ & D). rewrite D. split; [reflexivity|].
    change (0 + mr_index rd) with (mr_index rd). change (MFrame (mf_ts f / 1000 * 1000) (mr_index rd =? 0) (mf_data f)) with (seen (mr_index rd) f).
    assert (Lrd : r < length (ms_readers s)) by (apply nth_error_Some; congruence).
    split; cbn [ms_track ms_groups ms_cur ms_job ms_readers mwith_readers mwith_groups]; auto.
    + exists prods. rewrite written_snoc. cbn [written flat_map]. rewrite app_nil_r. split; auto. unfold groups'. rewrite set_nth_length. auto.
    + intros r' rd' Hr'. destruct (Nat.eq_dec r' r) as [->|Nr].
      * rewrite nth_error_set_eq in Hr' by auto. injection Hr' as <-. split; auto. cbn [mr_group mr_cons mr_index].
        exists fs, p, fin, g'. split; auto. split; [apply nth_error_set_eq; auto|].
        cbn [g' gwith_cons gs_cons gs_heap]. rewrite (get_set_eq _ _ _ _ Hc'). split; [auto|].
        assert (mr_index rd < length fs) by (apply nth_error_Some; congruence). split; [lia|].
        rewrite read_by_snoc, Hread. cbn [read_by flat_map]. rewrite Nat.eqb_refl. cbn [app].
        symmetry. apply firstn_snoc. rewrite (seen_from_nth 0 _ _ _ En). reflexivity.
      * rewrite nth_error_set_ne in Hr' by auto. apply Other; auto. cbn. rewrite (proj2 (Nat.eqb_neq r' r) Nr). reflexivity.
    + rewrite reader_groups_snoc. cbn [reader_groups flat_map]. rewrite app_nil_r.
      destruct (nth_error (reader_groups tr) r) as [gr|] eqn:Egr.
      * eapply Forall2_set_l; eauto. exact (Forall2_nth_error _ _ _ _ _ _ In Hr Egr).
      * apply nth_error_None in Egr. rewrite <- (Forall2_length _ _ _ In) in Egr. lia.
    + intros r'. rewrite set_nth_length. intros L. rewrite read_by_snoc, (Iu r' L). cbn.
      destruct (Nat.eqb_spec r' r); [lia|reflexivity].
    + intros r1 r2 a1 a2 H1 H2 Eg Ec.
      assert (U : forall r0 a0, nth_error (set_nth r (MReader (mr_group rd) (mr_cons rd) (S (mr_index rd))) (ms_readers s)) r0 = Some a0 ->
        exists b0, nth_error (ms_readers s) r0 = Some b0 /\ mr_group b0 = mr_group a0 /\ mr_cons b0 = mr_cons a0).
      { intros r0 a0 H0. destruct (Nat.eq_dec r0 r) as [->|Nr].
        - rewrite nth_error_set_eq in H0 by auto. injection H0 as <-. exists rd. auto.
        - rewrite nth_error_set_ne in H0 by auto. eauto. }
      destruct (U _ _ H1) as (b1 & B1 & G1 & C1). destruct (U _ _ H2) as (b2 & B2 & G2 & C2).
      eapply Id; eauto; congruence.
  - assert (Es : nth_error (seen_from 0 fs) (mr_index rd) = None).
    { apply nth_error_None. rewrite seen_from_length. apply nth_error_None. auto. }
    rewrite Es.
    assert (Out : exists o, (match a with AOk (Some _) => False | _ => True end) /\
      o = match p with [] => if fin then MGot (AOk None) else MGot APending | _ => MGot APending end /\
      o = match a with AOk (Some _) => MBad | AOk None => MGot (AOk None) | AErr e => MGot (AErr e) | APending => MGot APending | AFuel => MGot AFuel end).
    { destruct p; destruct Hres as [-> _]; [destruct fin|]; eauto. }
    destruct Out as (o & Na & Eo & Eo').
    assert (Ho : read_by r [(MRead r, o)] = []) by (rewrite Eo; destruct p; [destruct fin|]; reflexivity).
    rewrite <- Eo. split.
    { destruct a as [[b|]| | |]; try contradiction; cbn; rewrite Eo'; reflexivity. }
    assert (Wo : forall r', read_by r' [(MRead r, o)] = []) by (intros r'; rewrite Eo; destruct p; [destruct fin|]; reflexivity).
    split; cbn [ms_track ms_groups ms_cur ms_job ms_readers mwith_readers mwith_groups]; auto.
    + exists prods. rewrite written_snoc. cbn [written flat_map]. rewrite app_nil_r. split; auto. unfold groups'. rewrite set_nth_length. auto.
    + intros r' rd' Hr'. destruct (Nat.eq_dec r' r) as [->|Nr]; [|apply Other; auto].
      rewrite Hr in Hr'. injection Hr' as <-. split; auto. exists fs, p, fin, g'. split; auto.
      split; [apply nth_error_set_eq; auto|]. cbn [g' gwith_cons gs_cons gs_heap]. rewrite (get_set_eq _ _ _ _ Hc').
      split; [|split; auto; rewrite read_by_snoc, Ho, app_nil_r; auto].
      destruct p; [destruct Hres as [_ ->]; auto|]. destruct Hres as (_ & -> & L). right. auto.
    + rewrite reader_groups_snoc. cbn [reader_groups flat_map]. rewrite app_nil_r. auto.
    + intros r' L. rewrite read_by_snoc, (Iu r' L), Wo. reflexivity.
Qed.

(** * Everything else *)
Lemma media_groups_length ws : length (media_groups ws) <= length ws.
Proof.
  induction ws as [|f ws IH] using rev_ind; cbn; auto. rewrite media_groups_snoc, app_length. cbn.
  destruct (media_groups ws) as [|x gs] using rev_ind; [|clear IHgs].
  - cbn. lia.
  - destruct (mf_key f) eqn:K; [rewrite add_media_key by auto|rewrite add_media_delta by auto];
    rewrite !app_length in *; cbn in *; lia.
Qed.

(** Steps that touch neither the groups nor the writer. *)
Lemma minv_quiet w s tr shapes t e :
  minv w s tr shapes -> (forall n prods, tshape n prods (ms_track s) -> tshape n prods t) ->
  written [e] = [] -> reader_groups [e] = [] -> (forall r, read_by r [e] = []) ->
  minv w (mwith_track s t) (tr ++ [e]) shapes.
Proof.
  intros [Ig (prods & Ij & It) Ir In Iu Id] T W G R.
  split; cbn [ms_track ms_groups ms_cur ms_job ms_readers mwith_track]; auto.
  - exists prods. rewrite written_snoc, W, app_nil_r. auto.
  - intros r rd Hr. eapply rok_ext; [apply Ir; eauto| | |].
    + intros j g Hg. exists g. auto.
    + intros j x Hx. exists x, []. rewrite app_nil_r. auto.
    + rewrite read_by_snoc, R, app_nil_r. auto.
  - rewrite reader_groups_snoc, G, app_nil_r. auto.
  - intros r Hr. rewrite read_by_snoc, R, app_nil_r. auto.
Qed.

Lemma mwith_track_same s : mwith_track s (ms_track s) = s.
Proof. destruct s; reflexivity. Qed.

Lemma step_consume w m s tr shapes s' x : minv w s tr shapes -> mstep w m s MConsume = (s', x) ->
  minv w s' (tr ++ [(MConsume, x)]) shapes.
Proof.
  intros I. cbn [mstep]. destruct (tstep m (ms_track s) (TConsume 0)) as [t y] eqn:E. intros H. injection H as <- <-.
  apply minv_quiet; auto. intros n prods [T1 T2 T3 T4]. unfold tstep in E. destruct (idle (ms_track s) 0); injection E as <- <-; split; auto.
Qed.

Lemma step_write w m s tr shapes f s' x : minv w s tr shapes -> mstep w m s (MWrite f) = (s', x) ->
  minv w s' (tr ++ [(MWrite f, x)]) shapes.
Proof.
  intros I. cbn [mstep]. destruct (ms_job s) as [j|] eqn:Ej.
  { intros H. injection H as <- <-. rewrite <- (mwith_track_same s). apply minv_quiet; auto. }
  destruct (media_header (mf_ts f)) eqn:Eh; cycle 1.
  { intros H. injection H as <- <-. rewrite <- (mwith_track_same s). apply minv_quiet; auto. }
  intros H. injection H as <- <-. destruct I as [Ig (prods & Ij & It) Ir In Iu Id].
  split; cbn [ms_track ms_groups ms_cur ms_job ms_readers mwith_job]; auto.
  - exists prods. split; auto. rewrite written_snoc. cbn [written flat_map app].
    inversion Ij as [E0 E1 E2 E3 E4|pre l E0 E1 E2 E3 E4|? ? ? ? ? ? ? E1|? ? ? ? E1|? ? ? ? E1|? ? ? ? ? ? ? ? E1]; try congruence; rewrite <- E3 in *.
    + rewrite E0 in *. cbn [app]. apply (JApp1 [f] [] f); reflexivity.
    + destruct (mf_key f) eqn:K.
      * eapply JFin; eauto.
      * apply (JPart _ SCreate (written tr)); auto.
        -- rewrite media_groups_snoc, E0, add_media_delta; auto.
        -- cbn. auto.
  - intros r rd Hr. eapply rok_ext; [apply Ir; eauto| | |].
    + intros j g Hg. exists g. auto.
    + intros j y Hy. exists y, []. rewrite app_nil_r. auto.
    + rewrite read_by_snoc. cbn. rewrite app_nil_r. auto.
  - rewrite reader_groups_snoc. cbn. rewrite app_nil_r. auto.
  - intros r Hr. rewrite read_by_snoc. cbn. rewrite app_nil_r. auto.
Qed.

Lemma latest_group n g : latest_of n = Some g -> n <> 0 /\ g_id g = n - 1 /\ g_seq g = N.of_nat (n - 1).
Proof. destruct n; cbn; [discriminate|]. intros H. injection H as <-. cbn. rewrite Nat.sub_0_r. auto. Qed.

Lemma step_next w m s tr shapes c s' x : minv w s tr shapes -> mstep w m s (MNext c) = (s', x) ->
  x <> MPanic /\ minv w s' (tr ++ [(MNext c, x)]) shapes.
Proof.
  intros I. cbn [mstep]. destruct (tstep m (ms_track s) (TNext c)) as [t y] eqn:E.
  assert (Et : (forall n prods, tshape n prods (ms_track s) -> tshape n prods t)).
  { intros n prods [T1 T2 T3 T4]. unfold tstep in E. destruct (get (ts_cons (ms_track s)) c); [|injection E as <- <-; split; auto].
    destruct (track_next _ _ _ _) as [[a prev]|]; injection E as <- <-; split; auto. }
  assert (Ey : y = TBad \/ (exists a, y = TGot a /\ forall gr, a = AOk (Some gr) -> ts_latest (ms_track s) = Some gr)).
  { unfold tstep in E. destruct (get (ts_cons (ms_track s)) c); [|injection E as <- <-; auto].
    destruct I as [_ (prods & _ & [T1 T2 T3 T4]) _ _ _ _]. unfold track_next in E. rewrite T2 in E.
    destruct (opt_gt (option_map g_seq (ts_latest (ms_track s))) o) eqn:O; cbn in E.
    - destruct (ts_latest (ms_track s)) as [gr|] eqn:L; [|destruct o; discriminate]. injection E as <- <-.
      right. eexists. split; eauto. intros gr' H. injection H as <-. reflexivity.
    - destruct (tsys_alive (ms_track s)); injection E as <- <-; right; eexists; split; eauto; discriminate. }
  destruct Ey as [->|(a & -> & La)].
  { intros H. injection H as <- <-. split; [discriminate|]. apply minv_quiet; auto. }
  assert (Quiet : (forall gr, a <> AOk (Some gr)) -> forall s'0 x0, (mwith_track s t, MGroup a) = (s'0, x0) -> x0 <> MPanic /\ minv w s'0 (tr ++ [(MNext c, x0)]) shapes).
  { intros Na s0 x0 H. injection H as <- <-. split; [discriminate|]. apply minv_quiet; auto.
    destruct a as [[gr|]| | |]; try reflexivity. destruct (Na gr); auto. }
  destruct a as [[gr|]| | |]; try (apply Quiet; discriminate). clear Quiet.
  specialize (La gr eq_refl).
  destruct I as [Ig (prods & Ij & It) Ir In Iu Id]. pose proof It as [T1 T2 T3 T4]. rewrite T1 in La.
  apply latest_group in La as (N0 & Gi & Gs). cbn [ms_groups mwith_track ms_readers].
  assert (Lj : g_id gr < length (ms_groups s)) by lia.
  destruct (nth_error (ms_groups s) (g_id gr)) as [g|] eqn:Eg; [|apply nth_error_None in Eg; lia].
  destruct (nth_error shapes (g_id gr)) as [[[fs p] fin]|] eqn:Es;
    [|apply nth_error_None in Es; rewrite (Forall2_length _ _ _ Ig) in Es; lia].
  assert (Sg : gshape (fs, p, fin) g) by (eapply Forall2_nth_error; eauto).
  assert (Kc : get (gs_cons g) 0 = Some (GC 0 None)) by apply Sg.
  cbn [gstep]. rewrite Kc. intros H. injection H as <- <-. split; [discriminate|].
  set (g' := gwith_cons g (gs_cons g ++ [Some (GC 0 None)])).
  assert (Lc : length (gs_cons g) <> 0) by (apply get_lt in Kc; lia).
  assert (Grow : forall k a, get (gs_cons g) k = Some a -> get (gs_cons g') k = Some a).
  { intros k a Hk. cbn. rewrite get_app. destruct (Nat.eqb_spec k (length (gs_cons g))); auto. apply get_lt in Hk. lia. }
  assert (Ext : forall r rd, nth_error (ms_readers s) r = Some rd -> 
    rok shapes (set_nth (g_id gr) g' (ms_groups s)) (tr ++ [(MNext c, MGroup (AOk (Some gr)))]) r rd).
  { intros r rd Hr. eapply rok_ext; [apply Ir; eauto| | |].
    - intros j g0 Hg0. destruct (Nat.eq_dec j (g_id gr)) as [->|Nj].
      + rewrite Eg in Hg0. injection Hg0 as <-. exists g'. rewrite nth_error_set_eq by auto. split; auto.
      + exists g0. rewrite nth_error_set_ne by auto. auto.
    - intros j x Hx. exists x, []. rewrite app_nil_r. auto.
    - rewrite read_by_snoc. cbn. rewrite app_nil_r. auto. }
  split; cbn [ms_track ms_groups ms_cur ms_job ms_readers mwith_track mwith_groups mwith_readers].
  - eapply Forall2_set_r; eauto. destruct Sg as (A1 & A2 & A3 & A4 & A5 & A6). cbn. repeat split; auto.
  - exists prods. rewrite written_snoc. cbn [written flat_map]. rewrite app_nil_r, set_nth_length. auto.
  - intros r rd Hr. apply nth_error_split2 in Hr as [[L Hr]|[-> ->]]; [auto|].
    split; cbn [mr_cons mr_group mr_index]; auto. exists fs, p, fin, g'. split; auto.
    split; [apply nth_error_set_eq; auto|]. cbn [g' gwith_cons gs_cons]. rewrite get_app, Nat.eqb_refl. split; [auto|].
    split; [lia|]. rewrite read_by_snoc, Iu by lia. reflexivity.
  - rewrite reader_groups_snoc. apply Forall2_app; auto. cbn. constructor; auto. cbn. split; auto. congruence.
  - intros r. rewrite app_length. cbn. intros L. rewrite read_by_snoc, Iu by lia. reflexivity.
  - intros r r' a b Ha Hb Egr Ec.
    assert (U : forall r0 a0, nth_error (ms_readers s) r0 = Some a0 -> mr_group a0 = g_id gr -> mr_cons a0 <> length (gs_cons g)).
    { intros r0 a0 H0 G0 C0. destruct (Ir _ _ H0) as [_ (fs1 & p1 & fin1 & g1 & _ & Hg1 & Hc1 & _)].
      rewrite G0, Eg in Hg1. injection Hg1 as <-. rewrite C0 in Hc1. destruct Hc1 as [Hc1|[Hc1 _]]; apply get_lt in Hc1; lia. }
    apply nth_error_split2 in Ha as [[L Ha]|[-> ->]]; apply nth_error_split2 in Hb as [[L' Hb]|[-> ->]]; cbn in *; auto.
    + eapply Id; eauto.
    + exfalso. eapply U; eauto.
    + exfalso. eapply U; eauto.
Qed.

Lemma mrun_snoc w m s ops o :
  mrun w m s (ops ++ [o]) = let (s1, tr) := mrun w m s ops in let (s2, x) := mstep w m s1 o in (s2, tr ++ [(o, x)]).
Proof.
  revert s; induction ops as [|p ops IH]; intros s; cbn [app mrun].
  - destruct (mstep w m s o). reflexivity.
  - destruct (mstep w m s p) as [s1 x]. rewrite IH. destruct (mrun w m s1 ops) as [s2 tr].
    destruct (mstep w m s2 o). reflexivity.
Qed.

Definition allowed (w : N) (tr : list mevent) : Prop :=
  Forall (in_range w) (written tr) /\ (N.of_nat (length (written tr)) < 2 ^ 64)%N.

Lemma allowed_snoc w tr e : allowed w (tr ++ [e]) -> allowed w tr.
Proof.
  intros [R L]. rewrite written_snoc in *. apply Forall_app in R as [R _]. rewrite app_length in L. split; auto. lia.
Qed.

Lemma step_any w m s tr shapes o s' x : minv w s tr shapes -> allowed w tr -> mstep w m s o = (s', x) ->
  (exists shapes', minv w s' (tr ++ [(o, x)]) shapes') /\ x <> MGarbage /\
  (x = MPanic -> exists f, o = MWrite f).
Proof.
  intros I [R L] E. destruct o as [f| | |c|r].
  - split; [eauto using step_write|]. cbn [mstep] in E. destruct (ms_job s); [injection E as <- <-; split; [discriminate|eauto]|].
    destruct (media_header (mf_ts f)); injection E as <- <-; split; try discriminate; eauto.
  - destruct (ms_job s) as [j|] eqn:Ej.
    + destruct (step_writer w m s tr shapes I R) as (s1 & sh & E1 & I1); [|congruence|].
      { pose proof (media_groups_length (written tr)). lia. }
      rewrite E in E1. injection E1 as -> ->. split; eauto. split; discriminate.
    + cbn [mstep] in E. rewrite Ej in E. injection E as <- <-. split; [|split; discriminate].
      exists shapes. rewrite <- (mwith_track_same s). apply minv_quiet; auto.
  - split; [eauto using step_consume|]. cbn [mstep] in E. destruct (tstep m (ms_track s) (TConsume 0)) as [t []];
    injection E as <- <-; split; discriminate.
  - destruct (step_next _ _ _ _ _ _ _ _ I E) as [Np I']. split; eauto. split; [|congruence].
    cbn [mstep] in E. destruct (tstep m (ms_track s) (TNext c)) as [t y]. 
    destruct y; try (injection E as <- <-; discriminate). destruct a as [[gr|]| | |]; try (injection E as <- <-; discriminate).
    destruct (nth_error _ _); [destruct (gstep _ _ _)|]; injection E as <- <-; discriminate.
  - destruct (nth_error (ms_readers s) r) as [rd|] eqn:Hr.
    + destruct (step_read w m s tr shapes r rd I R Hr) as (s1 & fs & p & fin & l & more & _ & _ & _ & E1 & I1).
      rewrite E in E1. injection E1 as -> ->. split; eauto. unfold read_result.
      destruct (nth_error (seen_from 0 fs) _); [split; discriminate|]. destruct p; [destruct fin|]; split; discriminate.
    + cbn [mstep] in E. rewrite Hr in E. injection E as <- <-. split; [|split; discriminate].
      exists shapes. rewrite <- (mwith_track_same s). apply minv_quiet; auto.
Qed.

Lemma minv_run w m ops : forall s tr, mrun w m msys_new ops = (s, tr) -> allowed w tr -> exists shapes, minv w s tr shapes.
Proof.
  induction ops as [|o ops IH] using rev_ind; intros s tr H A.
  - cbn in H. injection H as <- <-. exists []. apply minv_new.
  - rewrite mrun_snoc in H. destruct (mrun w m msys_new ops) as [s1 tr1]. destruct (mstep w m s1 o) as [s2 x] eqn:E.
    injection H as <- <-. pose proof (allowed_snoc _ _ _ A) as A1.
    destruct (IH _ _ eq_refl A1) as (shapes & I). destruct (step_any _ _ _ _ _ _ _ _ I A1 E) as [I' _]. exact I'.
Qed.

(** * What readers see *)
Lemma media_read_back w m ops s tr : mrun w m msys_new ops = (s, tr) -> allowed w tr ->
  forall r gr, nth_error (reader_groups tr) r = Some gr ->
  exists gs l, cut_at_keyframes (written tr) gs /\ nth_error gs (N.to_nat (g_seq gr)) = Some l /\
    read_by r tr = firstn (length (read_by r tr)) (seen_from 0 l).
Proof.
  intros H A r gr Hgr. destruct (minv_run _ _ _ _ _ H A) as (shapes & I).
  destruct I as [Ig (prods & Ij & It) Ir In Iu Id].
  assert (Hr : exists rd, nth_error (ms_readers s) r = Some rd).
  { destruct (nth_error (ms_readers s) r) eqn:E; eauto. apply nth_error_None in E.
    rewrite (Forall2_length _ _ _ In) in E. apply nth_error_None in E. congruence. }
  destruct Hr as (rd & Hr). destruct (Forall2_nth_error _ _ _ _ _ _ In Hr Hgr) as [Gi Gs].
  destruct (Ir r rd Hr) as [C0 (fs & p & fin & g & Hs & Hg & Hc & Hn & Hread)].
  destruct (job_prefix _ _ _ _ _ _ _ _ _ Ij Hs) as (l & more & Hl & El & Hp).
  exists (media_groups (written tr)), l. split; [apply media_groups_cut|]. rewrite Gs, Nat2N.id. split; auto.
  rewrite Hread at 1. rewrite Hread, firstn_length, seen_from_length, Nat.min_l by auto. subst l. symmetry. apply firstn_seen. auto.
Qed.

(** When the writer is between writes, the next poll of a reader is determined. *)
Lemma media_next_read w m ops s tr : mrun w m msys_new ops = (s, tr) -> allowed w tr -> ms_job s = None ->
  forall r gr, nth_error (reader_groups tr) r = Some gr ->
  exists gs l, cut_at_keyframes (written tr) gs /\ nth_error gs (N.to_nat (g_seq gr)) = Some l /\
    snd (mstep w m s (MRead r)) =
      match nth_error (seen_from 0 l) (length (read_by r tr)) with
      | Some f => MGot (AOk (Some f))
      | None => if Nat.eqb (S (N.to_nat (g_seq gr))) (length gs) then MGot APending else MGot (AOk None)
      end.
Proof.
  intros H A Jn r gr Hgr. destruct (minv_run _ _ _ _ _ H A) as (shapes & I). pose proof A as [R _].
  pose proof I as [Ig (prods & Ij & It) Ir In Iu Id].
  assert (Hr : exists rd, nth_error (ms_readers s) r = Some rd).
  { destruct (nth_error (ms_readers s) r) eqn:E; eauto. apply nth_error_None in E.
    rewrite (Forall2_length _ _ _ In) in E. apply nth_error_None in E. congruence. }
  destruct Hr as (rd & Hr). destruct (Forall2_nth_error _ _ _ _ _ _ In Hr Hgr) as [Gi Gs].
  destruct (step_read w m s tr shapes r rd I R Hr) as (s1 & fs & p & fin & l & more & Hs & Hl & El & E1 & _).
  exists (media_groups (written tr)), l. split; [apply media_groups_cut|]. rewrite Gs, Nat2N.id. split; auto.
  rewrite E1. cbn [snd]. unfold read_result.
  rewrite Jn in Ij. inversion Ij as [E0 E2 E3 E4 E5|pre l0 E0 E2 E3 E4 E5|? ? ? ? ? ? ? E2|? ? ? ? E2|? ? ? ? E2|? ? ? ? ? ? ? ? E2].
  - rewrite <- E3 in Hs. destruct (mr_group rd); discriminate.
  - rewrite <- E3 in Hs. rewrite E0 in Hl |- *. rewrite app_length. cbn [length].
    apply nth_error_split2 in Hs as [[L Hs]|[Ei Hs]].
    + rewrite allfin_length in L. apply allfin_nth in Hs as (l1 & Hl1 & E). injection E as -> -> ->.
      rewrite nth_error_app1, Hl1 in Hl by auto. injection Hl as ->.
      destruct (nth_error (seen_from 0 l) _); auto. destruct (Nat.eqb_spec (S (mr_group rd)) (length pre + 1)); [lia|auto].
    + rewrite allfin_length in Ei. injection Hs as -> -> ->. rewrite Ei, nth_last in Hl. injection Hl as ->.
      destruct (nth_error (seen_from 0 l) _); auto. destruct (Nat.eqb_spec (S (mr_group rd)) (length pre + 1)); [auto|lia].
Qed.

(** No panic but that of an out-of-range timestamp, no garbage, no error. *)
Lemma media_calm w m ops s tr : mrun w m msys_new ops = (s, tr) -> allowed w tr ->
  forall o x, In (o, x) tr -> x <> MGarbage /\ (x = MPanic -> exists f, o = MWrite f).
Proof.
  revert s tr. induction ops as [|o ops IH] using rev_ind; intros s tr H A.
  - cbn in H. injection H as <- <-. intros o x [].
  - rewrite mrun_snoc in H. destruct (mrun w m msys_new ops) as [s1 tr1] eqn:Er. destruct (mstep w m s1 o) as [s2 y] eqn:E.
    injection H as <- <-. pose proof (allowed_snoc _ _ _ A) as A1.
    destruct (minv_run _ _ _ _ _ Er A1) as (shapes & I). destruct (step_any _ _ _ _ _ _ _ _ I A1 E) as [_ C].
    intros o' x Hi. apply in_app_iff in Hi as [Hi|[Hi|[]]]; [eapply IH; eauto|]. injection Hi as <- <-. exact C.
Qed.

(** * The groups *)
Lemma media_groups_state w m ops s tr : mrun w m msys_new ops = (s, tr) -> allowed w tr ->
  (forall j g, nth_error (ms_groups s) j = Some g -> S j < length (ms_groups s) -> gs_closed g = Some Finished) /\
  (ms_job s = None -> exists gs, cut_at_keyframes (written tr) gs /\ length gs = length (ms_groups s) /\
    ts_latest (ms_track s) = latest_of (length gs) /\
    forall j g, nth_error (ms_groups s) j = Some g -> S j = length gs -> gs_closed g = None).
Proof.
  intros H A. destruct (minv_run _ _ _ _ _ H A) as (shapes & I).
  pose proof I as [Ig (prods & Ij & It) Ir In Iu Id]. split.
  - intros j g Hg L. destruct (nth_error shapes j) as [[[fs p] fin]|] eqn:Es;
      [|apply nth_error_None in Es; rewrite (Forall2_length _ _ _ Ig) in Es; lia].
    pose proof (Forall2_nth_error _ _ _ _ _ _ Ig Es Hg) as (_ & _ & C & _). rewrite C.
    rewrite <- (Forall2_length _ _ _ Ig) in L.
    destruct fin; auto. exfalso.
    assert (Q : forall pre l p0, nth_error (allfin pre ++ [(l, p0, false)]) j = Some (fs, p, false) -> S j < length (allfin pre ++ [(l, p0, false)]) -> False).
    { intros pre l p0 E L0. rewrite app_length in L0. cbn in L0. rewrite nth_error_app1 in E by lia.
      apply allfin_nth in E as (? & _ & E). discriminate. }
    destruct Ij; try (eapply Q; eauto; fail).
    + cbn in L. lia.
    + apply allfin_nth in Es as (? & _ & E). discriminate.
    + apply allfin_nth in Es as (? & _ & E). discriminate.
  - intros Jn. exists (media_groups (written tr)). split; [apply media_groups_cut|].
    rewrite Jn in Ij. inversion Ij as [E0 E2 E3 E4 E5|pre l0 E0 E2 E3 E4 E5|? ? ? ? ? ? ? E2|? ? ? ? E2|? ? ? ? E2|? ? ? ? ? ? ? ? E2].
    + rewrite E0. assert (ms_groups s = []) as -> by (rewrite <- E3 in Ig; inversion Ig; auto).
      split; auto. split; [|intros j g Hg; destruct j; discriminate].
      destruct It as [T1 _ _ _]. rewrite T1. rewrite <- (Forall2_length _ _ _ Ig), <- E3. reflexivity.
    + assert (Ln : length (media_groups (written tr)) = length (ms_groups s)).
      { rewrite E0, <- (Forall2_length _ _ _ Ig), <- E3, !app_length, allfin_length. reflexivity. }
      split; auto. rewrite Ln. split; [apply It|]. intros j g Hg L.
      destruct (nth_error shapes j) as [[[fs p] fin]|] eqn:Es;
      [|apply nth_error_None in Es; rewrite (Forall2_length _ _ _ Ig) in Es; lia].
      pose proof (Forall2_nth_error _ _ _ _ _ _ Ig Es Hg) as (_ & _ & C & _). rewrite C.
      rewrite <- E3 in Es. apply nth_error_split2 in Es as [[L0 Es]|[_ E]].
      * rewrite <- Ln, E0, app_length in L. cbn in L. rewrite allfin_length in L0. lia.
      * injection E as -> -> ->. reflexivity.
Qed.
