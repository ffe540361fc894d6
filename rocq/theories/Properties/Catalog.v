(** Property C63: the catalog track of a broadcast. *)
From Coq Require Import NArith ZArith List Bool Lia Sorted Permutation.
From Coq Require Import Floats.SpecFloat.
From Coq Require Import Init.Byte Strings.Byte.
From Verif.Model Require Import Base ErrorCode Stream Frame FrameSys GroupSys TrackSys Catalog.
From Verif.Spec Require Import CatalogSpec.
From Verif.Proofs Require Import CatalogP CatalogTaskP.
Import ListNotations.
Open Scope nat_scope.

(** The theorems are for every type of video, audio and location descriptions, every [==] on them, and
    every way of writing and parsing a catalog. *)

(** ** The catalog producer by itself *)

(** At most one catalog is right about a history. *)
Theorem C63_unique : forall V A L (veq : V -> V -> bool) (aeq : A -> A -> bool) init ds (c c' : catalog V A L),
  describes veq aeq init ds c -> describes veq aeq init ds c' -> c = c'.
Proof. intros V A L veq aeq init ds c c'. exact (describes_unique veq aeq init ds c c'). Qed.
Print Assumptions C63_unique.

(** Whatever the interleaving of changes, publishes, clones and readers: a reader reads whole catalogs, each of
    which lists exactly what had been added and not removed when it was published, each at most once and in
    the order they were published. *)
Theorem C63_reads : forall V A L (veq : V -> V -> bool) (aeq : A -> A -> bool) json parse w m (init : catalog V A L) ops s tr r l,
  crun veq aeq json parse w m (csys_new init) ops = (s, tr) -> in_bounds veq aeq json w init tr ->
  nth_error (reads tr) r = Some l ->
  exists js, StronglySorted lt js /\
    Forall2 (fun j x => exists ds c, nth_error (publications [] tr) j = Some ds /\ describes veq aeq init ds c /\ x = parse (json c)) js l.
Proof. intros V A L veq aeq json parse w m init ops s tr r l. exact (catalog_reads veq aeq json parse w m init ops s tr r l). Qed.
Print Assumptions C63_reads.

(** When no publish is under way and a reader has to wait, the last it read is the newest catalog published. *)
Theorem C63_up_to_date : forall V A L (veq : V -> V -> bool) (aeq : A -> A -> bool) json parse w m (init : catalog V A L) ops s tr r,
  crun veq aeq json parse w m (csys_new init) ops = (s, tr) -> in_bounds veq aeq json w init tr ->
  let next o := snd (cstep veq aeq json parse w m s o) in
  next CStep = CBad -> next (CTrack r) = CPend -> next (CFrame r) = CPend \/ next (CFrame r) = CNothing ->
  forall l, nth_error (reads tr) r = Some l ->
  match rev (publications [] tr) with
  | [] => l = []
  | ds :: _ => exists l0 c, l = l0 ++ [parse (json c)] /\ describes veq aeq init ds c
  end.
Proof. intros V A L veq aeq json parse w m init ops s tr r. exact (catalog_latest veq aeq json parse w m init ops s tr r). Qed.
Print Assumptions C63_up_to_date.

(** A reader that is woken while no publish is under way reads the newest catalog next. *)
Theorem C63_next : forall V A L (veq : V -> V -> bool) (aeq : A -> A -> bool) json parse w m (init : catalog V A L) ops s tr r s1 s2 x,
  crun veq aeq json parse w m (csys_new init) ops = (s, tr) -> in_bounds veq aeq json w init tr ->
  snd (cstep veq aeq json parse w m s CStep) = CBad ->
  cstep veq aeq json parse w m s (CTrack r) = (s1, CGroup) -> cstep veq aeq json parse w m s1 (CFrame r) = (s2, x) ->
  exists pre ds c, publications [] tr = pre ++ [ds] /\ describes veq aeq init ds c /\ x = CRead (parse (json c)).
Proof. intros V A L veq aeq json parse w m init ops s tr r s1 s2 x. exact (catalog_next veq aeq json parse w m init ops s tr r s1 s2 x). Qed.
Print Assumptions C63_next.

(** ** The broadcast: calls of add_video and add_audio on any number of clones, and the cleanup tasks *)

(** Nothing panics. *)
Theorem C63_no_panic : forall V A L (veq : V -> V -> bool) (aeq : A -> A -> bool) json parse w m ops (s : bcsys V A L) tr,
  bcrun veq aeq json parse w m bcsys_new ops = (s, tr) -> bounded json w tr -> self_equal veq aeq (map fst (asked tr)) ->
  forall o, ~ In (o, BPanic) tr.
Proof. intros V A L veq aeq json parse w m ops s tr H B R. exact (proj1 (binv_run veq aeq json parse w m ops s tr H B R)). Qed.
Print Assumptions C63_no_panic.

(** When every thread has done what it can, a reader that has to wait has read a catalog that lists only
    renditions of tracks that have not ended, and all of those that do not equal that of an ended track. *)
Theorem C63_lists_live : forall V A L (veq : V -> V -> bool) (aeq : A -> A -> bool) json parse w m ops (s : bcsys V A L) tr r l,
  bcrun veq aeq json parse w m bcsys_new ops = (s, tr) -> bounded json w tr -> self_equal veq aeq (map fst (asked tr)) ->
  settled veq aeq json w parse m s -> nth_error (reads (reader_events tr)) r = Some l ->
  let next o := snd (bcstep veq aeq json parse w m s (BRead o)) in
  next (CTrack r) = BOut CPend -> next (CFrame r) = BOut CPend \/ next (CFrame r) = BOut CNothing ->
  (asked tr = [] /\ l = []) \/ exists l0 c, l = l0 ++ [parse (json c)] /\ lists_live veq aeq tr c.
Proof.
  intros V A L veq aeq json parse w m ops s tr r l H B R S E next H1 H2.
  destruct (task_reader veq aeq json parse w m ops s tr r l H B R S E H1 H2) as [|(l0 & c & E1 & E2 & _)]; [auto|right; eauto].
Qed.
Print Assumptions C63_lists_live.

(** If the renditions asked for are different, it lists exactly those of the tracks that have not ended. *)
Theorem C63_exact_partial : forall V A L (veq : V -> V -> bool) (aeq : A -> A -> bool) json parse w m ops (s : bcsys V A L) tr r l,
  bcrun veq aeq json parse w m bcsys_new ops = (s, tr) -> bounded json w tr -> told_apart veq aeq (map fst (asked tr)) ->
  settled veq aeq json w parse m s -> nth_error (reads (reader_events tr)) r = Some l ->
  let next o := snd (bcstep veq aeq json parse w m s (BRead o)) in
  next (CTrack r) = BOut CPend -> next (CFrame r) = BOut CPend \/ next (CFrame r) = BOut CNothing ->
  (asked tr = [] /\ l = []) \/
  exists l0 c, l = l0 ++ [parse (json c)] /\ ct_location c = None /\ Permutation (renditions c) (live_renditions tr).
Proof.
  intros V A L veq aeq json parse w m ops s tr r l H B T S E next H1 H2.
  assert (R : self_equal veq aeq (map fst (asked tr))) by (intros x Hx; apply T; auto).
  destruct (task_reader veq aeq json parse w m ops s tr r l H B R S E H1 H2) as [|(l0 & c & E1 & E2 & E3)]; [auto|].
  right. exists l0, c. split; [auto|]. split; [apply E2|auto].
Qed.
Print Assumptions C63_exact_partial.

(** The catalog does not end while one of the tracks is live, even if every handle of the user is dropped. *)
Theorem C63_stays_open : forall V A L (veq : V -> V -> bool) (aeq : A -> A -> bool) json parse w m ops (s : bcsys V A L) tr r,
  bcrun veq aeq json parse w m bcsys_new ops = (s, tr) -> bounded json w tr -> told_apart veq aeq (map fst (asked tr)) ->
  live_renditions tr <> [] ->
  let next o := snd (bcstep veq aeq json parse w m s (BRead o)) in
  next (CTrack r) <> BOut CEnd /\ forall e, next (CTrack r) <> BOut (CErr e).
Proof. intros V A L veq aeq json parse w m ops s tr r. exact (task_open veq aeq json parse w m ops s tr r). Qed.
Print Assumptions C63_stays_open.

(** From every state the threads can come to rest, and however they are scheduled they take boundedly many
    steps before they all have to wait. *)
Theorem C63_settles : forall V A L (veq : V -> V -> bool) (aeq : A -> A -> bool) json parse w m (s : bcsys V A L),
  (exists is_, settled veq aeq json w parse m (fst (bcrun veq aeq json parse w m s (map (fun i => BGo i) is_)))) /\
  exists bound, forall is_ s' tr, bcrun veq aeq json parse w m s (map (fun i => BGo i) is_) = (s', tr) ->
    length (filter (fun e => match snd e with BUnit | BPanic => true | _ => false end) tr) <= bound.
Proof.
  intros V A L veq aeq json parse w m s.
  exact (conj (task_settles veq aeq json parse w m s) (task_no_livelock veq aeq json parse w m s)).
Qed.
Print Assumptions C63_settles.

(** ** Examples *)
Notation ex_catalog := (catalog byte byte unit).
(** A way to write catalogs without a location. *)
Definition ex_json (c : ex_catalog) : bytes :=
  flat_map (fun v => [x01; v]) (ct_video c) ++ flat_map (fun a => [x02; a]) (ct_audio c).
Fixpoint ex_parse (b : bytes) : option ex_catalog :=
  match b with
  | [] => Some (Catalog [] [] None)
  | k :: x :: b =>
    match ex_parse b with
    | Some c =>
      if Byte.eqb k x01 then Some (Catalog (x :: ct_video c) (ct_audio c) None)
      else if Byte.eqb k x02 then Some (Catalog (ct_video c) (x :: ct_audio c) None) else None
    | None => None
    end
  | _ => None
  end.
Lemma ex_round c : ct_location c = None -> ex_parse (ex_json c) = Some c.
Proof.
  destruct c as [vs aus l]. cbn. intros ->. unfold ex_json. cbn.
  assert (Ha : ex_parse (flat_map (fun a => [x02; a]) aus) = Some (Catalog [] aus None)) by (induction aus as [|a aus IH]; cbn in *; [|rewrite IH]; reflexivity).
  induction vs as [|v vs IH]; cbn in *; [exact Ha|rewrite IH; reflexivity].
Qed.
Lemma ex_small (rs : list (rendition byte byte)) c : (N.of_nat (length rs) < 2 ^ 62)%N -> catalog_from rs c -> (len (ex_json c) < 2 ^ 64)%N.
Proof.
  intros Hl [_ (rest & P)]. apply Permutation_length in P. unfold renditions in P. rewrite !app_length, !map_length in P.
  assert (Hf : forall k (l : list byte), length (flat_map (fun v => [k; v]) l) = 2 * length l).
  { intros k l. induction l as [|x l IH]; cbn; lia. }
  unfold len, ex_json. rewrite app_length, !Hf. change (2 ^ 64)%N with (4 * 2 ^ 62)%N. lia.
Qed.
Notation ex_bcrun := (bcrun Byte.eqb Byte.eqb ex_json ex_parse 64 Debug).
Notation ex_crun := (crun Byte.eqb Byte.eqb ex_json ex_parse 64 Debug).

Definition ex_pub (p : nat) : list (cop byte byte unit) := CPublish p :: repeat CStep 6.
Definition c63_ops : list (cop byte byte unit) :=
  [CConsume 0; CChange 0 (AddV x07)] ++ ex_pub 0 ++ [CTrack 0; CFrame 0; CClone 0; CChange 1 (AddA x08); CChange 0 (AddV x09); CRClone 0] ++
  ex_pub 1 ++ [CTrack 0; CChange 0 (RemV x07)] ++ ex_pub 0 ++ [CFrame 0; CTrack 0; CFrame 0; CTrack 1; CFrame 1].
Example C63_reads_example :
  let (s, tr) := ex_crun (csys_new (Catalog [] [] None)) c63_ops in
  in_bounds Byte.eqb Byte.eqb ex_json 64 (Catalog [] [] None) tr /\
  length (publications [] tr) = 3 /\
  reads tr = [[Some (Catalog [x07] [] None); Some (Catalog [x07; x09] [x08] None); Some (Catalog [x09] [x08] None)];
              [Some (Catalog [x07] [] None); Some (Catalog [x09] [x08] None)]] /\
  snd (cstep Byte.eqb Byte.eqb ex_json ex_parse 64 Debug s CStep) = CBad /\
  snd (cstep Byte.eqb Byte.eqb ex_json ex_parse 64 Debug s (CTrack 0)) = CPend /\
  snd (cstep Byte.eqb Byte.eqb ex_json ex_parse 64 Debug s (CFrame 0)) = CNothing.
Proof.
  destruct (ex_crun (csys_new (Catalog [] [] None)) c63_ops) as [s tr] eqn:E. vm_compute in E. injection E as <- <-.
  split; [split|].
  - intros ds c Hd (E1 & E2 & E3). cbn in Hd. unfold len, ex_json.
    destruct Hd as [<-|[<-|[<-|[]]]]; cbn in E1, E2; rewrite E1, E2; reflexivity.
  - reflexivity.
  - repeat split.
Qed.

Ltac settle := intros i; do 6 (destruct i as [|i]; [vm_compute; auto; fail|]); left; destruct i; reflexivity.

(** Two tracks; the first ends, and the user's handle is dropped. *)
Definition c63_all (n : nat) : list (bcop byte byte unit) := flat_map (fun i => repeat (BGo i) 20) (seq 0 n).
Definition c63_tasks : list (bcop byte byte unit) :=
  [BConsume 0; BTrack; BTrack; BAdd 0 (RV x07) 0; BGo 0; BGo 0; BClone 0; BGo 0] ++ c63_all 2 ++
  [BRead (CTrack 0); BRead (CFrame 0); BAdd 0 (RA x08) 1] ++ c63_all 4 ++ [BEnd 0; BDrop 0] ++ c63_all 4 ++
  [BRead (CTrack 0); BRead (CFrame 0)].
Example C63_tasks_example :
  let (s, tr) := ex_bcrun bcsys_new c63_tasks in
  bounded ex_json 64 tr /\ told_apart Byte.eqb Byte.eqb (map fst (asked tr)) /\ self_equal Byte.eqb Byte.eqb (map fst (asked tr)) /\
  settled Byte.eqb Byte.eqb ex_json 64 ex_parse Debug s /\ asked tr = [(RV x07, 0); (RA x08, 1)] /\ live_renditions tr = [RA x08] /\
  nth_error (reads (reader_events tr)) 0 = Some [Some (Catalog [x07] [] None); Some (Catalog [] [x08] None)] /\
  snd (bcstep Byte.eqb Byte.eqb ex_json ex_parse 64 Debug s (BRead (CTrack 0))) = BOut CPend /\
  snd (bcstep Byte.eqb Byte.eqb ex_json ex_parse 64 Debug s (BRead (CFrame 0))) = BOut CNothing.
Proof.
  destruct (ex_bcrun bcsys_new c63_tasks) as [s tr] eqn:E. vm_compute in E. injection E as <- <-.
  match goal with |- bounded _ _ ?t /\ _ => set (tr := t) end.
  assert (Ea : asked tr = [(RV x07, 0); (RA x08, 1)]) by reflexivity.
  split; [|split; [|split; [|split; [|split; [|split; [|split]]]]]].
  - split; [|reflexivity]. intros c. rewrite Ea. apply ex_small. reflexivity.
  - rewrite Ea. split.
    + repeat constructor; cbn; intuition discriminate.
    + intros x y [<-|[<-|[]]] [<-|[<-|[]]]; cbn; split; congruence.
  - rewrite Ea. intros x [<-|[<-|[]]]; reflexivity.
  - settle.
  - reflexivity.
  - reflexivity.
  - reflexivity.
  - split; reflexivity.
Qed.

(** ** Where it fails *)

(** Two tracks with equal descriptions: the end of the first removes both, and a reader that is up to date
    sees no rendition although the second track is live. *)
Theorem C63_refuted : exists ops s tr l c,
  ex_bcrun bcsys_new ops = (s, tr) /\ bounded ex_json 64 tr /\ (forall b b', Byte.eqb b b' = true <-> b = b') /\
  settled Byte.eqb Byte.eqb ex_json 64 ex_parse Debug s /\
  nth_error (reads (reader_events tr)) 0 = Some (l ++ [Some c]) /\
  snd (bcstep Byte.eqb Byte.eqb ex_json ex_parse 64 Debug s (BRead (CTrack 0))) = BOut CPend /\
  snd (bcstep Byte.eqb Byte.eqb ex_json ex_parse 64 Debug s (BRead (CFrame 0))) = BOut CNothing /\
  live_renditions tr = [RV x07] /\ renditions c = [].
Proof.
  pose (ops := [BConsume 0; BTrack; BTrack; BAdd 0 (RV x07) 0] ++ c63_all 2 ++ [BAdd 0 (RV x07) 1] ++ c63_all 3 ++
    [BEnd 0] ++ c63_all 3 ++ [BRead (CTrack 0); BRead (CFrame 0)] : list (bcop byte byte unit)).
  exists ops. destruct (ex_bcrun bcsys_new ops) as [s tr] eqn:E. exists s, tr, [], (Catalog [] [] None).
  split; [reflexivity|]. vm_compute in E. injection E as <- <-.
  split; [|split; [|split; [|repeat split]]].
  - split; [|reflexivity]. intros c. apply ex_small. reflexivity.
  - intros b b'. split; [apply Byte.byte_dec_bl|apply Byte.byte_dec_lb].
  - settle.
Qed.
Print Assumptions C63_refuted.

(** A description with a floating point NaN, here the frame rate: it stays listed after its track has ended. *)
Theorem C63_nan_refuted : exists ops s tr c,
  bcrun SFeqb Byte.eqb (fun _ => []) (fun _ => None) 64 Debug (bcsys_new (L := unit)) ops = (s, tr) /\ cs_cur (bs_cat s) = c /\
  settled SFeqb Byte.eqb (fun _ => []) 64 (fun _ => None) Debug s /\
  live_renditions tr = [] /\ renditions c = [RV S754_nan].
Proof.
  pose (all := fun n => flat_map (fun i => repeat (BGo i) 20) (seq 0 n) : list (bcop spec_float byte unit)).
  pose (ops := [BTrack; BAdd 0 (RV S754_nan) 0] ++ all 2 ++ [BEnd 0] ++ all 2 : list (bcop spec_float byte unit)).
  exists ops. destruct (bcrun SFeqb Byte.eqb (fun _ => []) (fun _ => None) 64 Debug (bcsys_new (L := unit)) ops) as [s tr] eqn:E.
  exists s, tr, (cs_cur (bs_cat s)). vm_compute in E. injection E as <- <-. repeat split. settle.
Qed.
Print Assumptions C63_nan_refuted.

(** After [finish] a reader is told of the end in place of the newest catalog. *)
Theorem C63_finish_refuted : exists ops s tr l ds c,
  ex_crun (csys_new (Catalog [] [] None)) ops = (s, tr) /\
  snd (cstep Byte.eqb Byte.eqb ex_json ex_parse 64 Debug s CStep) = CBad /\
  publications [] tr = l ++ [ds] /\ describes Byte.eqb Byte.eqb (Catalog [] [] None) ds c /\ renditions c = [RV x07] /\
  nth_error (reads tr) 0 = Some [] /\ snd (cstep Byte.eqb Byte.eqb ex_json ex_parse 64 Debug s (CTrack 0)) = CEnd.
Proof.
  pose (ops := [CConsume 0; CChange 0 (AddV x07)] ++ ex_pub 0 ++ [CFinish 0]).
  exists ops. destruct (ex_crun (csys_new (Catalog [] [] None)) ops) as [s tr] eqn:E.
  exists s, tr, [], [AddV x07], (Catalog [x07] [] None). vm_compute in E. injection E as <- <-. repeat split.
Qed.
Print Assumptions C63_finish_refuted.
