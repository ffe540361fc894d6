(** The media writer on the application's track of a network. *)
From Coq Require Import NArith ZArith List Lia Bool Arith.
From Coq Require Import Init.Byte Strings.Byte.
From Coq Require Import ZifyBool ZifyNat ZifyN.
From Verif.Model Require Import Base Coding Message ErrorCode Stream Frame FrameSys TrackSys Media Publisher Transfer Net Live.
From Verif.Spec Require Import TrackSpec TransferSpec NetSpec MediaSpec LiveSpec.
From Verif.Proofs Require Import BaseP TableP TrackP TransferP RelayP NetP NetSysP NetStepP NetTopP MediaP.
Import ListNotations.
Open Scope nat_scope.

(** * What others do leaves the application's track alone *)

Definition groups0 (n : net) : list rgroup := nth 0 (nt_groups n) [].
Definition prod0 (n : net) : option tprod :=
  match nth_error (nt_tracks n) 0 with Some t => get (ts_prods t) 0 | None => None end.
Definition at0 (did : list (nat * tevent)) : list group :=
  flat_map (fun d => if Nat.eqb (fst d) 0 then accept_of (snd d) else []) did.

Lemma at0_app a b : at0 (a ++ b) = at0 a ++ at0 b.
Proof. apply flat_map_app. Qed.

Definition spares0 (o : top) : bool :=
  match o with
  | TInsert _ _ | TAppend1 _ | TAppend2 _ _ => false
  | TFinish p | TAbort p _ | TDrop p => negb (Nat.eqb p 0)
  | _ => true
  end.

Lemma spared0 m t o t' x : spares0 o = true -> tstep m t o = (t', x) ->
  get (ts_prods t') 0 = get (ts_prods t) 0 /\ accept_of (o, x) = [].
Proof.
  intros S H. unfold spares0 in S. unfold tstep in H.
  destruct o as [p g|p|p id|p|p e|p|p|p| |p|c|c|c|c]; try discriminate S; (split; [|reflexivity]).
  - destruct (idle t p); injection H as <- _; [|reflexivity]. cbn. apply get_set_ne. intros ->. discriminate.
  - destruct (idle t p); injection H as <- _; [|reflexivity]. cbn. apply get_set_ne. intros ->. discriminate.
  - destruct (idle t p); injection H as <- _; [|reflexivity]. cbn. apply get_set_ne. intros ->. discriminate.
  - destruct (idle t p) eqn:I; injection H as <- _; [|reflexivity]. cbn.
    unfold idle in I. destruct (get (ts_prods t) p) eqn:G; [|discriminate]. apply get_lt in G.
    unfold get. destruct (ts_prods t) as [|a l]; [cbn in G; lia|reflexivity].
  - destruct (idle t p); injection H as <- _; reflexivity.
  - destruct (ts_guards t); injection H as <- _; reflexivity.
  - destruct (idle t p); injection H as <- _; reflexivity.
  - destruct (get (ts_cons t) c) as [prev|]; [|injection H as <- _; reflexivity].
    destruct (track_next _ _ _ _) as [[a pr]|]; injection H as <- _; reflexivity.
  - destruct (get (ts_cons t) c); injection H as <- _; reflexivity.
  - destruct (get (ts_cons t) c); injection H as <- _; reflexivity.
  - destruct (get (ts_cons t) c); injection H as <- _; reflexivity.
Qed.

Record same0 (n n' : net) : Prop := { s0_groups : groups0 n' = groups0 n; s0_prod : prod0 n' = prod0 n }.
Lemma same0_refl n : same0 n n.
Proof. constructor; reflexivity. Qed.
Lemma same0_trans a b c : same0 a b -> same0 b c -> same0 a c.
Proof. intros [] []. constructor; congruence. Qed.

Lemma at_track_same m i o s s' x : at_track m i o s = (s', x) -> (i = 0 -> spares0 o = true) ->
  same0 s s' /\ (i = 0 -> accept_of (o, x) = []).
Proof.
  intros A S. unfold at_track in A. destruct (nth_error (nt_tracks s) i) as [t|] eqn:E.
  - destruct (tstep m t o) as [t' y] eqn:St. injection A as <- <-. destruct i as [|i].
    + destruct (spared0 _ _ _ _ _ (S eq_refl) St) as (P & Ac). split; [|auto]. constructor; [reflexivity|].
      unfold prod0. cbn [with_tracks nt_tracks]. rewrite nth_error_set_eq by (apply nth_error_Some; congruence). rewrite E. exact P.
    + split; [|discriminate]. constructor; [reflexivity|]. unfold prod0. cbn [with_tracks nt_tracks].
      rewrite nth_error_set_ne by discriminate. reflexivity.
  - injection A as <- <-. split; [apply same0_refl|]. intros _. destruct o; reflexivity.
Qed.

Lemma with_links_same s l : same0 s (with_links s l).
Proof. constructor; reflexivity. Qed.
Lemma with_groups_same s l gs : same0 s (with_groups s (set_nth (S l) gs (nt_groups s))).
Proof. constructor; [|reflexivity]. unfold groups0. cbn. destruct (nt_groups s); reflexivity. Qed.

Lemma finish_turn_same m l ln y did s s' x : finish_turn m l ln y did s = (s', x) -> at0 did = [] ->
  same0 s s' /\ at0 (no_did x) = [].
Proof.
  unfold finish_turn. intros H A. destruct (is_over ln).
  - destruct (at_track m (ln_src ln) _ _) as [s2 z] eqn:E. injection H as <- <-.
    destruct (at_track_same _ _ _ _ _ _ E) as (S & Ac); [reflexivity|]. split.
    + eapply same0_trans; [|exact S]. apply with_links_same.
    + cbn [no_did]. change (at0 (did ++ [(ln_src ln, (TCDrop (ln_cons ln), z))]) = []). rewrite at0_app, A. cbn. destruct (Nat.eqb (ln_src ln) 0); reflexivity.
  - injection H as <- <-. split; [apply with_links_same|exact A].
Qed.

Definition outside (o : nop) : bool :=
  match o with
  | NGroup | NFill _ _ => false
  | NUse 0 o => spares0 o
  | _ => true
  end.

Lemma outside_same m w s o s' x : outside o = true -> 0 < length (nt_groups s) -> 0 < length (nt_tracks s) ->
  nstep m w s o = (s', x) -> same0 s s' /\ at0 (no_did x) = [].
Proof.
  intros O Lg Lt H.
  assert (B : bad s = (s', x) -> same0 s s' /\ at0 (no_did x) = []) by (intros E; injection E as <- <-; split; [apply same0_refl|reflexivity]).
  destruct o as [|j o|i o|i p id prio|l|l newer lost|l|l k live canc sched r|l clean|l]; cbn [nstep] in H; try discriminate O.
  - destruct (Nat.ltb i (length (nt_tracks s)) && may_use s i o); [|exact (B H)].
    destruct (at_track m i o s) as [s1 y] eqn:A. injection H as <- <-.
    destruct (at_track_same _ _ _ _ _ _ A) as (S & Ac). { intros ->. exact O. }
    split; [exact S|]. cbn. rewrite app_nil_r. destruct (Nat.eqb_spec i 0) as [->|N]; [auto|reflexivity].
  - destruct (Nat.eqb i 0 || Nat.eqb p 2); [|exact (B H)].
    destruct (nth_error (nt_tracks s) i) as [t|] eqn:E; [|exact (B H)].
    destruct (tstep m t (TConsume p)) as [t' y] eqn:St. destruct y; try exact (B H).
    destruct (tstep m tsys_new (TClone 0)) as [t1 x1]. destruct (tstep m t1 (TClone 0)) as [t2 x2].
    injection H as <- <-. split; [constructor|].
    + unfold groups0. cbn. rewrite app_nth1 by exact Lg. reflexivity.
    + unfold prod0. cbn [nt_tracks]. rewrite nth_error_app1 by (rewrite set_nth_length; exact Lt).
      destruct i as [|i].
      * rewrite nth_error_set_eq by exact Lt. rewrite E. exact (proj1 (spared0 m t (TConsume p) t' TUnit eq_refl St)).
      * rewrite nth_error_set_ne by discriminate. reflexivity.
    + cbn. destruct (Nat.eqb i 0), (Nat.eqb (length (nt_tracks s)) 0); reflexivity.
  - destruct (nth_error (nt_links s) l) as [ln|]; [|exact (B H)]. destruct (is_over ln); [exact (B H)|].
    destruct (at_track m (ln_src ln) (TNext (ln_cons ln)) s) as [s1 y] eqn:A.
    destruct (at_track_same _ _ _ _ _ _ A) as (S & Ac); [reflexivity|].
    assert (D : at0 [(ln_src ln, (TNext (ln_cons ln), y))] = []) by (cbn; destruct (Nat.eqb (ln_src ln) 0); reflexivity).
    assert (F : forall ln' z, finish_turn m l ln' z [(ln_src ln, (TNext (ln_cons ln), y))] s1 = (s', x) -> same0 s s' /\ at0 (no_did x) = []).
    { intros ln' z Hf. destruct (finish_turn_same _ _ _ _ _ _ _ _ Hf D) as (S1 & D1). split; [|exact D1]. eapply same0_trans; eassumption. }
    destruct y as [| | | | |[[g|]|e| |]|]; try (injection H as <- <-; split; [exact S|exact D]).
    + destruct (turn m ln _ _) as [ln' z]. exact (F _ _ H).
    + destruct (turn m ln _ _) as [ln' z]. exact (F _ _ H).
    + destruct (turn m ln _ _) as [ln' z]. exact (F _ _ H).
  - destruct (nth_error (nt_links s) l) as [ln|]; [|exact (B H)]. destruct (is_over ln); [exact (B H)|].
    destruct (if newer then tv_new (ln_serve ln) else tv_old (ln_serve ln)) as [k|]; [|exact (B H)].
    destruct (nth_error (ln_streams ln) k) as [st|]; [|exact (B H)].
    destruct lost.
    + destruct (turn m ln _ _) as [ln' z]. exact (finish_turn_same _ _ _ _ _ _ _ _ H eq_refl).
    + destruct (nth_error _ (st_src st)) as [[fs [o|]]|]; try exact (B H).
      destruct (turn m ln _ _) as [ln' z]. exact (finish_turn_same _ _ _ _ _ _ _ _ H eq_refl).
  - destruct (nth_error (nt_links s) l) as [ln|]; [|exact (B H)]. destruct (is_over ln); [exact (B H)|].
    destruct (turn m ln _ _) as [ln' z]. exact (finish_turn_same _ _ _ _ _ _ _ _ H eq_refl).
  - destruct (nth_error (nt_links s) l) as [ln|]; [|exact (B H)].
    destruct (nth_error (ln_streams ln) k) as [st|]; [|exact (B H)].
    destruct (nth_error _ (st_src st)) as [g|]; [|exact (B H)].
    destruct (serve_group _ _ _) as [sv sd].
    destruct (possible sv sd r && _ && _); [|exact (B H)].
    assert (U : forall s1 st' a did, same0 s s1 -> at0 did = [] -> (update l ln k st' s1, NOut did (NGiven a)) = (s', x) ->
      same0 s s' /\ at0 (no_did x) = []).
    { intros s1 st' a did S D E. injection E as <- <-. split; [|exact D]. eapply same0_trans; [exact S|]. apply with_links_same. }
    destruct (recv_stream w canc r) as [e|h t g']; [eapply U; [|..|exact H]; [apply same0_refl|reflexivity]|].
    destruct (st_at st) as [[j|]|].
    + eapply U; [|..|exact H]; [apply with_groups_same|reflexivity].
    + eapply U; [|..|exact H]; [apply same0_refl|reflexivity].
    + destruct (ln_phase ln); try (eapply U; [|..|exact H]; [apply same0_refl|reflexivity]; fail).
      all: destruct (at_track m (S l) _ s) as [s1 y] eqn:A; destruct (at_track_same _ _ _ _ _ _ A) as (S & _); [discriminate|];
        destruct y as [| | |[]| | |]; (eapply U; [|..|exact H]; [|reflexivity]); try exact S;
        eapply same0_trans; [exact S|apply with_groups_same].
  - destruct (nth_error (nt_links s) l) as [ln|]; [|exact (B H)].
    destruct (ln_phase ln), clean, (ln_over ln) as [[e|]|]; try exact (B H);
      destruct (at_track m (S l) _ s) as [s1 y] eqn:A; destruct (at_track_same _ _ _ _ _ _ A) as (S & _); try discriminate;
      injection H as <- <-; (split; [|reflexivity]); eapply same0_trans; try exact S; apply with_links_same.
  - destruct (nth_error (nt_links s) l) as [ln|]; [|exact (B H)].
    destruct (ln_phase ln); try exact (B H).
    destruct (at_track m (S l) _ s) as [s1 y] eqn:A; destruct (at_track_same _ _ _ _ _ _ A) as (S & _); [discriminate|].
    injection H as <- <-. split; [|reflexivity]. eapply same0_trans; [exact S|]. apply with_links_same.
Qed.

(** * What the application's copy holds *)

Definition body (f : mframe) : bytes := header_of f ++ mf_data f.
Definition enc (gs : list (list mframe)) (hs : list rgroup) : Prop :=
  forall j h k x, nth_error hs j = Some h -> nth_error (rg_frames h) k = Some x ->
  exists g f, nth_error gs j = Some g /\ nth_error g k = Some f /\ fst x = media_size f /\
    prefix (concat (fs_chunks (snd x))) (body f).
Definition ids (A : list group) : Prop := forall g, In g A -> g_seq g = N.of_nat (g_id g).
Definition all_ids (n : nat) : list group := map (fun j => Group (N.of_nat j) j) (seq 0 n).

Lemma all_ids_ids n : ids (all_ids n).
Proof. intros g H. apply in_map_iff in H. destruct H as (j & <- & _). reflexivity. Qed.
Lemma all_ids_S n : all_ids (S n) = all_ids n ++ [Group (N.of_nat n) n].
Proof. unfold all_ids. rewrite seq_S, map_app. reflexivity. Qed.
Lemma all_ids_last n : last_opt (all_ids n) = match n with O => None | S j => Some (Group (N.of_nat j) j) end.
Proof. destruct n; [reflexivity|]. rewrite all_ids_S. apply last_opt_snoc. Qed.

(** The frame being written. *)
Definition so_far (j : stage) (f : mframe) : bytes :=
  match j with SHeader => [] | SPayload => header_of f | _ => body f end.

Definition state (gs : list (list mframe)) (hs : list rgroup) (p : option tprod) (cur : option nat) (job : option (stage * mframe)) : Prop :=
  match job with
  | None => p = Some Idle /\
      match cur with
      | None => gs = [] /\ hs = []
      | Some j => exists a h pre g, hs = a ++ [h] /\ gs = pre ++ [g] /\ length a = length pre /\ j = length a /\ length (rg_frames h) = length g
      end
  | Some (SFinish, f) => p = Some Idle /\ in_range 62 f /\ exists a h pre, hs = a ++ [h] /\ gs = pre ++ [[f]] /\ length pre = length hs /\ cur = Some (length a)
  | Some (SAppend1, f) => p = Some Idle /\ in_range 62 f /\ cur = None /\ exists pre, gs = pre ++ [[f]] /\ length pre = length hs
  | Some (SAppend2, f) => in_range 62 f /\ cur = None /\
      (exists q, p = Some (Appending q) /\ (q = N.of_nat (length hs) \/ q = 0%N /\ hs <> [])) /\ exists pre, gs = pre ++ [[f]] /\ length pre = length hs
  | Some (SCreate, f) => p = Some Idle /\ in_range 62 f /\ exists a h pre g, hs = a ++ [h] /\ gs = pre ++ [g ++ [f]] /\ length a = length pre /\ cur = Some (length a) /\ length (rg_frames h) = length g
  | Some (j, f) => p = Some Idle /\ in_range 62 f /\
      exists a h pre g fr st, hs = a ++ [h] /\ gs = pre ++ [g ++ [f]] /\ length a = length pre /\ cur = Some (length a) /\
        rg_frames h = fr ++ [(media_size f, st)] /\ length fr = length g /\ concat (fs_chunks st) = so_far j f
  end.

Lemma nth_error_snoc {A} (l : list A) x : nth_error (l ++ [x]) (length l) = Some x.
Proof. rewrite nth_error_app2, Nat.sub_diag by lia. reflexivity. Qed.
Lemma set_nth_snoc {A} (l : list A) x y : set_nth (length l) y (l ++ [x]) = l ++ [y].
Proof. induction l; cbn; [reflexivity|]. rewrite IHl. reflexivity. Qed.

Lemma enc_gs gs gs' hs : enc gs hs ->
  (forall j g k f, nth_error gs j = Some g -> nth_error g k = Some f -> exists g', nth_error gs' j = Some g' /\ nth_error g' k = Some f) -> enc gs' hs.
Proof.
  intros E M j h k x Hj Hk. destruct (E j h k x Hj Hk) as (g & f & Eg & Ef & R). destruct (M j g k f Eg Ef) as (g' & Eg' & Ef').
  exists g', f. auto.
Qed.

Lemma nth_error_grow {A} (l m : list A) k x : nth_error l k = Some x -> nth_error (l ++ m) k = Some x.
Proof. intros E. rewrite nth_error_app1; [exact E|]. apply nth_error_Some. congruence. Qed.

Lemma enc_add gs f hs : enc gs hs -> enc (add_media gs f) hs.
Proof.
  intros E. apply (enc_gs gs); [exact E|]. intros j g k x Eg Ex.
  destruct gs as [|l pre _] using rev_ind; [destruct j; discriminate|].
  destruct (mf_key f) eqn:K.
  - rewrite add_media_key by exact K. exists g. split; [apply nth_error_grow; exact Eg|exact Ex].
  - rewrite add_media_delta by exact K. destruct (Nat.lt_ge_cases j (length pre)) as [L|L].
    + rewrite nth_error_app1 in * by exact L. exists g. auto.
    + rewrite nth_error_app2 in * by exact L. destruct (j - length pre) as [|[|i]]; try discriminate. cbn in *.
      injection Eg as ->. eexists. split; [reflexivity|]. apply nth_error_grow. exact Ex.
Qed.

Lemma enc_last gs a h h' : enc gs (a ++ [h]) ->
  (forall k x, nth_error (rg_frames h') k = Some x ->
     (exists y, nth_error (rg_frames h) k = Some y /\ fst y = fst x /\ concat (fs_chunks (snd y)) = concat (fs_chunks (snd x))) \/
     (exists g f, nth_error gs (length a) = Some g /\ nth_error g k = Some f /\ fst x = media_size f /\ prefix (concat (fs_chunks (snd x))) (body f))) ->
  enc gs (a ++ [h']).
Proof.
  intros E M j x k y Hj Hk. destruct (Nat.lt_ge_cases j (length a)) as [L|L].
  - apply (E j x k y); [|exact Hk]. rewrite nth_error_app1 in * by exact L. exact Hj.
  - assert (j = length a) as ->.
    { assert (N : nth_error (a ++ [h']) j <> None) by congruence. apply nth_error_Some in N. rewrite app_length in N. cbn in N. lia. }
    rewrite nth_error_snoc in Hj. injection Hj as <-. destruct (M k y Hk) as [(z & Ez & E1 & E2)|R]; [|exact R].
    destruct (E (length a) h k z (nth_error_snoc a h) Ez) as (g & f & A & B & C & D). exists g, f. rewrite <- E1, <- E2. auto.
Qed.

(** * One operation *)

Lemma fill_step m w n j o n' x : 0 < length (nt_groups n) -> nstep m w n (NFill j o) = (n', x) ->
  (n' = n /\ x = NOut [] NBad) \/
  (exists h h', nth_error (groups0 n) j = Some h /\ fill w o h = Some h' /\ groups0 n' = set_nth j h' (groups0 n) /\
     prod0 n' = prod0 n /\ x = NOut [] NNone).
Proof.
  intros L H. cbn [nstep] in H. unfold groups0 in *. destruct (nth_error (nth 0 (nt_groups n) []) j) as [h|] eqn:E; [|injection H as <- <-; auto].
  destruct (fill w o h) as [h'|] eqn:F; [|injection H as <- <-; auto].
  injection H as <- <-. right. exists h, h'. split; [reflexivity|]. split; [exact F|]. split; [|auto]. cbn. destruct (nt_groups n); [cbn in L; lia|reflexivity].
Qed.

Lemma group_step m w n n' x : 0 < length (nt_groups n) -> nstep m w n NGroup = (n', x) ->
  groups0 n' = groups0 n ++ [RGroup [] None] /\ prod0 n' = prod0 n /\ x = NOut [] NNone.
Proof.
  intros L H. cbn [nstep] in H. injection H as <- <-. unfold groups0. cbn. destruct (nt_groups n); [cbn in L; lia|]. auto.
Qed.

Lemma use_step m w n o n' x : nstep m w n (NUse 0 o) = (n', x) ->
  (n' = n /\ x = NOut [] NBad) \/
  (exists t t' y, nth_error (nt_tracks n) 0 = Some t /\ tstep m t o = (t', y) /\ x = NOut [(0, (o, y))] NNone /\
     groups0 n' = groups0 n /\ prod0 n' = get (ts_prods t') 0).
Proof.
  intros H. cbn [nstep] in H. destruct (Nat.ltb 0 (length (nt_tracks n)) && may_use n 0 o) eqn:B; [|injection H as <- <-; auto].
  apply andb_true_iff in B. destruct B as (L & _). apply Nat.ltb_lt in L.
  destruct (nth_error (nt_tracks n) 0) as [t|] eqn:E; [|apply nth_error_None in E; lia].
  destruct (at_track m 0 o n) as [s1 y] eqn:A. destruct (at_track_eq _ _ _ _ _ _ _ E A) as (t' & St & ->).
  injection H as <- <-. right. exists t, t', y. split; [reflexivity|]. split; [exact St|]. split; [reflexivity|]. split; [reflexivity|].
  unfold prod0. cbn [with_tracks nt_tracks]. destruct (nt_tracks n); [discriminate E|reflexivity].
Qed.

Lemma ninv_pos w n H : ninv w n H -> 0 < length (nt_groups n) /\ 0 < length (nt_tracks n).
Proof. intros K. pose proof (tk_len _ _ (ni_tracks _ _ _ K)). pose proof (ni_glen _ _ _ K). lia. Qed.

Lemma sound0 w n H : ninv w n H -> Forall (sound_group w) (groups0 n).
Proof. intros K. apply Forall_forall. intros h Hh. exact (co_sound _ _ _ (ni_cont _ _ _ K) 0 h Hh). Qed.

Lemma accept0_exts H did : accepted (exts H did 0) = accepted (H 0) ++ at0 did.
Proof.
  rewrite exts_at. unfold accepted. rewrite flat_map_app. f_equal. unfold at0. induction did as [|d did IH]; [reflexivity|].
  cbn [flat_map]. rewrite flat_map_app, IH. destruct (Nat.eqb (fst d) 0); cbn; rewrite ?app_nil_r; reflexivity.
Qed.

(** What always holds, and what holds while the writer lives. *)
Definition weak (n : net) (H : hists) (gs : list (list mframe)) : Prop := enc gs (groups0 n) /\ ids (accepted (H 0)).
Definition strong (n : net) (H : hists) (gs : list (list mframe)) (cur : option nat) (job : option (stage * mframe)) : Prop :=
  accepted (H 0) = all_ids (length (groups0 n)) /\ state gs (groups0 n) (prod0 n) cur job.

Lemma weak_same m w n H o n' x gs : ninv w n H -> outside o = true -> nstep m w n o = (n', x) -> weak n H gs -> weak n' (exts H (no_did x)) gs.
Proof.
  intros K O St (W1 & W2). destruct (ninv_pos _ _ _ K) as (Lg & Lt). destruct (outside_same _ _ _ _ _ _ O Lg Lt St) as ([S1 S2] & A).
  split; [rewrite S1; exact W1|]. rewrite accept0_exts, A, app_nil_r. exact W2.
Qed.
Lemma strong_same m w n H o n' x gs cur job : ninv w n H -> outside o = true -> nstep m w n o = (n', x) -> strong n H gs cur job ->
  strong n' (exts H (no_did x)) gs cur job.
Proof.
  intros K O St (W1 & W2). destruct (ninv_pos _ _ _ K) as (Lg & Lt). destruct (outside_same _ _ _ _ _ _ O Lg Lt St) as ([S1 S2] & A).
  unfold strong. rewrite S1, S2, accept0_exts, A, app_nil_r. auto.
Qed.

(** * Histories only grow *)
Definition grows (H H' : hists) : Prop :=
  forall i, incl (accepted (H i)) (accepted (H' i)) /\ forall c, incl (nth c (groups (H i)) []) (nth c (groups (H' i)) []).
Lemma grows_refl H : grows H H.
Proof. intros i. split; intros; apply incl_refl. Qed.
Lemma grows_trans a b c : grows a b -> grows b c -> grows a c.
Proof. intros P Q i. destruct (P i) as (P1 & P2), (Q i) as (Q1 & Q2). split; [|intros k]; eapply incl_tran; eauto. Qed.

Lemma twatch_incl G e c : incl (nth c G []) (nth c (twatch G e) []).
Proof.
  assert (Ap : forall l, incl (nth c G []) (nth c (G ++ [l]) [])).
  { intros l. destruct (Nat.lt_ge_cases c (length G)) as [L|L]; [rewrite app_nth1 by exact L; apply incl_refl|].
    rewrite (nth_overflow G []) by exact L. intros ? []. }
  destruct e as [o x]. unfold twatch.
  destruct o; destruct x as [| | | | |[[gg|]|ee| |]|]; try apply incl_refl; try apply Ap.
  destruct (Nat.eq_dec c0 c) as [->|N].
  - destruct (Nat.lt_ge_cases c (length G)) as [L|L].
    + erewrite (nth_error_nth (set_nth c _ G)); [|apply nth_error_set_eq; exact L]. apply incl_appl, incl_refl.
    + rewrite (nth_overflow G []) by exact L. intros ? [].
  - destruct (nth_error G c) as [l|] eqn:E.
    + rewrite (nth_error_nth G c [] E). erewrite (nth_error_nth (set_nth c0 _ G)); [apply incl_refl|]. rewrite nth_error_set_ne by exact N. exact E.
    + apply nth_error_None in E. rewrite (nth_overflow G []) by exact E. intros ? [].
Qed.

Lemma grows_exts H did : grows H (exts H did).
Proof.
  revert H. induction did as [|d did IH]; intros H; [apply grows_refl|].
  eapply grows_trans; [|exact (IH (ext H (fst d) (snd d)))]. intros i. destruct (Nat.eq_dec i (fst d)) as [->|N].
  - rewrite ext_same, accepted_snoc, groups_snoc. split; [apply incl_appl, incl_refl|]. intros c. apply twatch_incl.
  - rewrite ext_other by exact N. split; intros; apply incl_refl.
Qed.

(** * A critical section of the writer *)

Lemma prefix_app_l (a b : bytes) : prefix a (a ++ b).
Proof. exists b. reflexivity. Qed.

Lemma modest_size f : in_range 62 f -> (media_size f < 2 ^ 62)%N.
Proof. intros R. exact (proj1 (proj2 (header_ok f 62 R))). Qed.

Lemma fill_frame_last w h fr size st o k h' : fill w o h = Some h' -> rg_frames h = fr ++ [(size, st)] -> k = length fr ->
  match o with GWrite f _ | GDone f => f = k | _ => False end ->
  exists st', rg_frames h' = fr ++ [(size, st')] /\ concat (fs_chunks st') = concat (fs_chunks st) ++ match o with GWrite _ c => c | _ => [] end.
Proof.
  intros F E -> O. unfold fill in F. destruct o as [z|i c|i|i e|e]; try contradiction; subst i; rewrite E, nth_error_snoc in F.
  - destruct (fill_frame w (GWrite (length fr) c) (size, st)) as [y|] eqn:Fy; [|discriminate]. injection F as <-. cbn [rg_frames].
    rewrite set_nth_snoc. unfold fill_frame in Fy. destruct (fs_closed st) eqn:Cl; [discriminate|].
    unfold frame_write in Fy. rewrite Cl in Fy. cbn [snd] in Fy. destruct (_ <=? _)%N in Fy; [|discriminate]. injection Fy as <-.
    eexists. split; [reflexivity|]. cbn. rewrite concat_app. cbn. rewrite app_nil_r. reflexivity.
  - destruct (fill_frame w (GDone (length fr)) (size, st)) as [y|] eqn:Fy; [|discriminate]. injection F as <-. cbn [rg_frames].
    rewrite set_nth_snoc. unfold fill_frame in Fy. destruct (fs_closed st) eqn:Cl; [discriminate|].
    unfold frame_finish in Fy. destruct (_ =? _)%N in Fy; [|discriminate]. injection Fy as <-.
    eexists. split; [reflexivity|]. cbn. rewrite app_nil_r. reflexivity.
Qed.

Lemma fill_end w h e h' : fill w (GEnd e) h = Some h' -> rg_frames h' = rg_frames h.
Proof. unfold fill. destruct (rg_closed h); [discriminate|]. intros [= <-]. reflexivity. Qed.

Lemma ids_app A B : ids A -> ids B -> ids (A ++ B).
Proof. intros P Q g Hg. apply in_app_or in Hg. destruct Hg; auto. Qed.

(** Ending a group changes no frame. *)
Lemma weak_end m w n H j e n' x gs : ninv w n H -> nstep m w n (NFill j (GEnd e)) = (n', x) -> weak n H gs ->
  weak n' (exts H (no_did x)) gs.
Proof.
  intros K St (W1 & W2). destruct (ninv_pos _ _ _ K) as (Lg & Lt).
  destruct (fill_step _ _ _ _ _ _ _ Lg St) as [(-> & ->)|(h & h' & Eh & F & G & P & ->)]; [split; assumption|].
  split; [|exact W2]. rewrite G. intros i y k z Hi Hk. destruct (Nat.eq_dec i j) as [->|N].
  - rewrite nth_error_set_eq in Hi by (apply nth_error_Some; congruence). injection Hi as <-. rewrite (fill_end _ _ _ _ F) in Hk. exact (W1 j h k z Eh Hk).
  - rewrite nth_error_set_ne in Hi by congruence. exact (W1 i y k z Hi Hk).
Qed.

Lemma weak_use m w n H o n' x gs : nstep m w n (NUse 0 o) = (n', x) -> weak n H gs ->
  (forall t t' y, tstep m t o = (t', y) -> accept_of (o, y) = []) -> weak n' (exts H (no_did x)) gs.
Proof.
  intros St (W1 & W2) A. destruct (use_step _ _ _ _ _ _ St) as [(-> & ->)|(t & t' & y & Et & Ts & -> & G & P)]; [split; assumption|].
  split; [rewrite G; exact W1|]. rewrite accept0_exts. cbn [no_did at0 flat_map fst snd Nat.eqb]. rewrite (A _ _ _ Ts), !app_nil_r. exact W2.
Qed.

Lemma gone_ok m w s n H gs : (62 <= w)%N -> ninv w n H -> weak n H gs ->
  let s' := gone m w s n in
  exists H', ninv w (lv_net s') H' /\ grows H H' /\ weak (lv_net s') H' gs /\ lv_gone s' = true /\ lv_job s' = None /\ lv_views s' = lv_views s.
Proof.
  intros W K Wk s'.
  assert (D : forall n H, ninv w n H -> weak n H gs -> let n' := fst (nrun m w n [NUse 0 (TDrop 0)]) in
    exists H', ninv w n' H' /\ grows H H' /\ weak n' H' gs).
  { clear -W. intros n H K Wk n'. cbn [nrun] in n'. destruct (nstep m w n (NUse 0 (TDrop 0))) as [n1 x1] eqn:E1. cbn in n'. subst n'.
    exists (exts H (no_did x1)). split; [eapply ninv_step; eauto; exact I|]. split; [apply grows_exts|].
    eapply weak_use; eauto. }
  subst s'. unfold gone. cbn [lv_net lv_gone lv_job lv_views]. destruct (lv_cur s) as [g|].
  - cbn [app]. cbn [nrun]. destruct (nstep m w n (NFill g (GEnd (Failed Cancel)))) as [n1 x1] eqn:E1.
    assert (K1 : ninv w n1 (exts H (no_did x1))) by (eapply ninv_step; eauto; exact I).
    assert (W1 : weak n1 (exts H (no_did x1)) gs) by (eapply weak_end; eauto).
    destruct (D _ _ K1 W1) as (H' & A & B & C). cbn [nrun] in *.
    destruct (nstep m w n1 (NUse 0 (TDrop 0))) as [n2 x2]. cbn [fst] in *. exists H'. split; [exact A|]. split; [|auto].
    eapply grows_trans; [apply grows_exts|exact B].
  - cbn [app]. destruct (D _ _ K Wk) as (H' & A & B & C). exists H'. auto 8.
Qed.

Lemma fine_bad : fine (NOut [] NBad) = false.
Proof. reflexivity. Qed.

Lemma section_ok m w n H gs cur j f n' tr : (62 <= w)%N -> ninv w n H -> weak n H gs -> strong n H gs cur (Some (j, f)) ->
  nrun m w n (section n cur j f) = (n', tr) ->
  exists H', ninv w n' H' /\ grows H H' /\ weak n' H' gs /\
    (forallb (fun e => fine (snd e)) tr = true -> strong n' H' gs (fst (after n cur j f)) (snd (after n cur j f))).
Proof.
  intros W K Wk (SA & SS) R. destruct (ninv_pos _ _ _ K) as (Lg & Lt). pose proof Wk as (Wk1 & Wk2). pose proof SS as SS0.
  destruct j; cbn [section nrun] in R; cbn [state] in SS.
  - (* SFinish *)
    destruct SS as (P & Rg & a & h & pre & Eh & Eg & Lp & ->).
    destruct (nstep m w n _) as [n1 x1] eqn:St in R. injection R as <- <-.
    exists (exts H (no_did x1)). split; [eapply ninv_step; eauto; exact I|]. split; [apply grows_exts|].
    split; [eapply weak_end; eauto|]. cbn [forallb snd]. intros Fi. rewrite andb_true_r in Fi.
    destruct (fill_step _ _ _ _ _ _ _ Lg St) as [(-> & ->)|(h0 & h' & E0 & F & G & P' & ->)]; [discriminate Fi|].
    rewrite Eh, nth_error_snoc in E0. injection E0 as <-.
    rewrite Eh, set_nth_snoc in G. split; cbn [after fst snd state].
    + rewrite accept0_exts, SA, G. cbn [no_did at0 flat_map]. rewrite app_nil_r, Eh, !app_length. reflexivity.
    + rewrite P', P, G. split; [reflexivity|]. split; [exact Rg|]. split; [reflexivity|]. exists pre. split; [exact Eg|]. rewrite Lp, Eh, !app_length. reflexivity.
  - (* SAppend1 *)
    destruct SS as (P & Rg & -> & pre & Eg & Lp).
    destruct (nstep m w n _) as [n1 x1] eqn:St in R. injection R as <- <-.
    exists (exts H (no_did x1)). split; [eapply ninv_step; eauto; exact I|]. split; [apply grows_exts|].
    split; [eapply weak_use; eauto; intros t t' y _; destruct y; reflexivity|]. cbn [forallb snd]. intros Fi. rewrite andb_true_r in Fi.
    destruct (use_step _ _ _ _ _ _ St) as [(-> & ->)|(t & t' & y & Et & Ts & -> & G & P')]; [discriminate Fi|].
    pose proof (tk_inv _ _ (ni_tracks _ _ _ K) 0 t Et) as Ti. unfold prod0 in P. rewrite Et in P.
    cbn [tstep] in Ts. unfold idle in Ts. rewrite P in Ts. rewrite (ti_latest _ _ Ti), SA, all_ids_last in Ts.
    split; cbn [after fst snd state].
    + rewrite accept0_exts, SA, G. cbn [no_did at0 flat_map fst snd Nat.eqb]. destruct y; cbn [accept_of]; rewrite ?app_nil_r; reflexivity.
    + rewrite G. split; [exact Rg|]. split; [reflexivity|]. split; [|eauto]. rewrite P'.
      assert (Q : forall q, (twith_prods t (set_nth 0 (Some (Appending q)) (ts_prods t)), TUnit) = (t', y) -> get (ts_prods t') 0 = Some (Appending q)).
      { intros q E. injection E as <- _. cbn [twith_prods ts_prods]. destruct (ts_prods t); [discriminate P|reflexivity]. }
      destruct (length (groups0 n)) as [|i] eqn:El; cbn [append_seq] in Ts.
      * apply Q in Ts. exists 0%N. split; [exact Ts|]. left. reflexivity.
      * cbn [g_seq] in Ts. destruct (N.of_nat i + 1 <? 2 ^ 64)%N.
        -- apply Q in Ts. eexists. split; [exact Ts|]. left. lia.
        -- destruct m; [injection Ts as <- <-; discriminate Fi|]. apply Q in Ts. eexists. split; [exact Ts|]. right. split; [reflexivity|].
           intros E. rewrite E in El. discriminate.
  - (* SAppend2 *)
    destruct SS as (Rg & -> & (q & P & Q) & pre & Eg & Lp).
    destruct (nstep m w n NGroup) as [n1 x1] eqn:St1 in R.
    destruct (group_step _ _ _ _ _ Lg St1) as (G1 & P1 & ->).
    assert (K1 : ninv w n1 H). { change H with (exts H (no_did (NOut [] NNone))). eapply ninv_step; eauto. exact I. }
    destruct (nstep m w n1 _) as [n2 x2] eqn:St2 in R. injection R as <- <-.
    assert (Wk' : weak n1 H gs).
    { split; [|exact Wk2]. rewrite G1. intros i y k z Hi Hk. destruct (Nat.lt_ge_cases i (length (groups0 n))) as [L|L].
      - rewrite nth_error_app1 in Hi by exact L. exact (Wk1 i y k z Hi Hk).
      - rewrite nth_error_app2 in Hi by exact L. destruct (i - length (groups0 n)) as [|[|d]]; try discriminate. injection Hi as <-. destruct k; discriminate. }
    exists (exts H (no_did x2)). split; [eapply ninv_step; eauto; exact I|]. split; [apply grows_exts|].
    fold (groups0 n) in St2.
    destruct (use_step _ _ _ _ _ _ St2) as [(-> & ->)|(t & t' & y & Et & Ts & -> & G & P')].
    { split; [exact Wk'|]. cbn. discriminate. }
    pose proof (tk_inv _ _ (ni_tracks _ _ _ K1) 0 t Et) as Ti. rewrite P in P1. unfold prod0 in P1. rewrite Et in P1.
    cbn [tstep] in Ts. rewrite P1 in Ts. cbn [ts_latest ts_closed twith_prods] in Ts. rewrite (ti_latest _ _ Ti), SA, all_ids_last in Ts.
    assert (Y : (accept_of (TAppend2 0 (length (groups0 n)), y) = [] /\ fine (NOut [(0, (TAppend2 0 (length (groups0 n)), y))] NNone) = false) \/
                (y = TAppended (Group (N.of_nat (length (groups0 n))) (length (groups0 n))) /\ get (ts_prods t') 0 = Some Idle)).
    { unfold track_insert in Ts. destruct (ts_closed t); [injection Ts as <- <-; left; auto|].
      assert (I0 : get (set_nth 0 (Some Idle) (ts_prods t)) 0 = Some Idle) by (destruct (ts_prods t); [discriminate P1|reflexivity]).
      destruct (length (groups0 n)) as [|i] eqn:El.
      - injection Ts as <- <-. right. split; [|exact I0]. destruct Q as [->|(-> & _)]; reflexivity.
      - cbn [g_seq] in Ts. destruct (N.ltb_spec (N.of_nat i) q) as [L|L].
        + injection Ts as <- <-. right. split; [|exact I0]. destruct Q as [->|(-> & _)]; [reflexivity|lia].
        + injection Ts as <- <-. left. auto. }
    split.
    + split; [rewrite G, G1; rewrite <- G1; exact (proj1 Wk')|]. rewrite accept0_exts. cbn [no_did at0 flat_map fst snd Nat.eqb]. rewrite app_nil_r. destruct Y as [(-> & _)|(-> & _)].
      * rewrite app_nil_r. exact Wk2.
      * cbn. apply ids_app; [exact Wk2|]. intros g [<-|[]]. reflexivity.
    + cbn [forallb snd]. intros Fi. rewrite andb_true_r in Fi. destruct Y as [(_ & Y)|(-> & Id)]; [cbn in Fi, Y; rewrite Y in Fi; discriminate|].
      split; cbn [after fst snd state].
      * rewrite accept0_exts, SA, G, G1, app_length. cbn [no_did at0 flat_map fst snd Nat.eqb accept_of app length]. rewrite Nat.add_1_r, all_ids_S. reflexivity.
      * rewrite P', Id, G, G1. split; [reflexivity|]. split; [exact Rg|]. exists (groups0 n), (RGroup [] None), pre, []. 
        split; [reflexivity|]. split; [exact Eg|]. split; [auto|]. split; reflexivity.
  - (* SCreate *)
    destruct SS as (P & Rg & a & h & pre & g & Eh & Eg & Lp & -> & Lf).
    destruct (nstep m w n _) as [n1 x1] eqn:St in R. injection R as <- <-.
    exists (exts H (no_did x1)). split; [eapply ninv_step; eauto; exact (modest_size f Rg)|]. split; [apply grows_exts|].
    destruct (fill_step _ _ _ _ _ _ _ Lg St) as [(-> & ->)|(h0 & h' & E0 & F & G & P' & ->)]; [split; [exact Wk|discriminate]|].
    rewrite Eh, nth_error_snoc in E0. injection E0 as <-. rewrite Eh, set_nth_snoc in G.
    unfold fill in F. destruct (rg_closed h); [discriminate|]. injection F as <-.
    split.
    + split; [|exact Wk2]. rewrite G. rewrite Eh in Wk1. apply (enc_last _ _ _ _ Wk1). cbn [rg_frames]. intros k x Hk.
      destruct (Nat.lt_ge_cases k (length (rg_frames h))) as [L|L].
      * rewrite nth_error_app1 in Hk by exact L. left. exists x. auto.
      * rewrite nth_error_app2 in Hk by exact L. right. destruct (k - length (rg_frames h)) as [|[|d]] eqn:Ek; try discriminate. injection Hk as <-.
        exists (g ++ [f]), f. rewrite Eg, Lp, nth_error_snoc. split; [reflexivity|]. assert (k = length g) as -> by lia. rewrite nth_error_snoc.
        split; [reflexivity|]. split; [reflexivity|]. exists (body f). reflexivity.
    + intros _. split; cbn [after fst snd state].
      * rewrite accept0_exts, SA, G. cbn [no_did at0 flat_map]. rewrite app_nil_r, Eh, !app_length. reflexivity.
      * rewrite P', P, G. split; [reflexivity|]. split; [exact Rg|]. exists a, (RGroup (rg_frames h ++ [(media_size f, frame_new)]) None), pre, g, (rg_frames h), frame_new. auto 10.
  - (* SHeader *)
    destruct SS as (P & Rg & a & h & pre & g & fr & st & Eh & Eg & Lp & -> & Ef & Lf & Es).
    cbn [section] in R. fold (groups0 n) in R. rewrite Eh, nth_error_snoc, Ef, app_length, Nat.add_1_r in R. cbn [pred] in R.
    destruct (nstep m w n _) as [n1 x1] eqn:St in R. injection R as <- <-.
    exists (exts H (no_did x1)). split; [eapply ninv_step; eauto; exact I|]. split; [apply grows_exts|].
    destruct (fill_step _ _ _ _ _ _ _ Lg St) as [(-> & ->)|(h0 & h' & E0 & F & G & P' & ->)]; [split; [exact Wk|discriminate]|].
    rewrite Eh, nth_error_snoc in E0. injection E0 as <-. rewrite Eh, set_nth_snoc in G.
    destruct (fill_frame_last _ _ _ _ _ _ _ _ F Ef eq_refl eq_refl) as (st' & Ef' & Es'). rewrite Es in Es'. cbn [so_far app] in Es'.
    split.
    + split; [|exact Wk2]. rewrite G. rewrite Eh in Wk1. apply (enc_last _ _ _ _ Wk1). rewrite Ef', Ef. intros k x Hk.
      destruct (Nat.lt_ge_cases k (length fr)) as [L|L].
      * rewrite nth_error_app1 in * by exact L. left. exists x. auto.
      * rewrite nth_error_app2 in Hk by exact L. right. destruct (k - length fr) as [|[|d]] eqn:Ek; try discriminate. injection Hk as <-.
        exists (g ++ [f]), f. rewrite Eg, Lp, nth_error_snoc. split; [reflexivity|]. assert (k = length g) as -> by lia. rewrite nth_error_snoc.
        split; [reflexivity|]. split; [reflexivity|]. cbn [snd]. rewrite Es'. apply prefix_app_l.
    + intros _. split; cbn [after fst snd state].
      * rewrite accept0_exts, SA, G. cbn [no_did at0 flat_map]. rewrite app_nil_r, Eh, !app_length. reflexivity.
      * rewrite P', P, G. split; [reflexivity|]. split; [exact Rg|]. exists a, h', pre, g, fr, st'. auto 10.
  - (* SPayload *)
    destruct SS as (P & Rg & a & h & pre & g & fr & st & Eh & Eg & Lp & -> & Ef & Lf & Es).
    cbn [section] in R. fold (groups0 n) in R. rewrite Eh, nth_error_snoc, Ef, app_length, Nat.add_1_r in R. cbn [pred] in R.
    destruct (nstep m w n _) as [n1 x1] eqn:St in R. injection R as <- <-.
    exists (exts H (no_did x1)). split; [eapply ninv_step; eauto; exact I|]. split; [apply grows_exts|].
    destruct (fill_step _ _ _ _ _ _ _ Lg St) as [(-> & ->)|(h0 & h' & E0 & F & G & P' & ->)]; [split; [exact Wk|discriminate]|].
    rewrite Eh, nth_error_snoc in E0. injection E0 as <-. rewrite Eh, set_nth_snoc in G.
    destruct (fill_frame_last _ _ _ _ _ _ _ _ F Ef eq_refl eq_refl) as (st' & Ef' & Es'). rewrite Es in Es'. cbn [so_far app] in Es'.
    split.
    + split; [|exact Wk2]. rewrite G. rewrite Eh in Wk1. apply (enc_last _ _ _ _ Wk1). rewrite Ef', Ef. intros k x Hk.
      destruct (Nat.lt_ge_cases k (length fr)) as [L|L].
      * rewrite nth_error_app1 in * by exact L. left. exists x. auto.
      * rewrite nth_error_app2 in Hk by exact L. right. destruct (k - length fr) as [|[|d]] eqn:Ek; try discriminate. injection Hk as <-.
        exists (g ++ [f]), f. rewrite Eg, Lp, nth_error_snoc. split; [reflexivity|]. assert (k = length g) as -> by lia. rewrite nth_error_snoc.
        split; [reflexivity|]. split; [reflexivity|]. cbn [snd]. rewrite Es'. exists []. symmetry. apply app_nil_r.
    + intros _. split; cbn [after fst snd state].
      * rewrite accept0_exts, SA, G. cbn [no_did at0 flat_map]. rewrite app_nil_r, Eh, !app_length. reflexivity.
      * rewrite P', P, G. split; [reflexivity|]. split; [exact Rg|]. exists a, h', pre, g, fr, st'. auto 10.
  - (* SEnd *)
    destruct SS as (P & Rg & a & h & pre & g & fr & st & Eh & Eg & Lp & -> & Ef & Lf & Es).
    cbn [section] in R. fold (groups0 n) in R. rewrite Eh, nth_error_snoc, Ef, app_length, Nat.add_1_r in R. cbn [pred] in R.
    destruct (nstep m w n _) as [n1 x1] eqn:St in R. injection R as <- <-.
    exists (exts H (no_did x1)). split; [eapply ninv_step; eauto; exact I|]. split; [apply grows_exts|].
    destruct (fill_step _ _ _ _ _ _ _ Lg St) as [(-> & ->)|(h0 & h' & E0 & F & G & P' & ->)]; [split; [exact Wk|discriminate]|].
    rewrite Eh, nth_error_snoc in E0. injection E0 as <-. rewrite Eh, set_nth_snoc in G.
    destruct (fill_frame_last _ _ _ _ _ _ _ _ F Ef eq_refl eq_refl) as (st' & Ef' & Es'). rewrite app_nil_r in Es'.
    split.
    + split; [|exact Wk2]. rewrite G. rewrite Eh in Wk1. apply (enc_last _ _ _ _ Wk1). rewrite Ef', Ef. intros k x Hk. left.
      destruct (Nat.lt_ge_cases k (length fr)) as [L|L].
      * rewrite nth_error_app1 in * by exact L. exists x. auto.
      * rewrite nth_error_app2 in * by exact L. destruct (k - length fr) as [|[|d]] eqn:Ek; try discriminate. injection Hk as <-.
        eexists. split; [reflexivity|]. auto.
    + intros _. split; cbn [after fst snd state].
      * rewrite accept0_exts, SA, G. cbn [no_did at0 flat_map]. rewrite app_nil_r, Eh, !app_length. reflexivity.
      * rewrite P', P, G. split; [reflexivity|]. exists a, h', pre, (g ++ [f]). rewrite Ef', !app_length. cbn. auto 10.
Qed.
