(** C130 to C132: a live media track, from the writer through any tree of sessions to its viewers. *)
From Coq Require Import NArith ZArith List Bool Lia.
From Coq Require Import Init.Byte Strings.Byte.
From Verif.Model Require Import Base Coding Message ErrorCode Stream Frame FrameSys TrackSys Media Publisher Transfer Net Live.
From Verif.Spec Require Import TrackSpec MediaSpec LiveSpec.
From Verif.Proofs Require Import MediaP LiveP LiveWaitP LiveSkipP.
Import ListNotations.
Open Scope nat_scope.

(** Viewers are shown frames that were written, as they were written, in the groups that the writer cut. *)
Theorem C130_shown : forall m w ops v, (62 <= w)%N -> Forall lmodest ops ->
  let tr := snd (lrun m w live_new ops) in
  exists gs, cut_at_keyframes (lwritten tr) gs /\ Forall (is_frame gs) (shown v tr).
Proof. intros m w ops v W M tr. exists (media_groups (lwritten tr)). split; [apply media_groups_cut|exact (shown_frames m w ops v W M)]. Qed.
Print Assumptions C130_shown.

(** And in order: the next frame of the group, or the first one of a later group. *)
Theorem C131_order : forall m w ops v, (62 <= w)%N -> Forall lmodest ops ->
  let tr := snd (lrun m w live_new ops) in
  ~ In LHang (results v tr) -> in_order (map fst (shown v tr)).
Proof. exact shown_order. Qed.
Print Assumptions C131_order.

(** A viewer whose read has to wait, at a node that has everything, has been shown the newest frame. *)
Theorem C132_waiting_partial : forall m w ops v fuel order i gs, (62 <= w)%N -> Forall lmodest ops ->
  let s := fst (lrun m w live_new ops) in let tr := snd (lrun m w live_new ops) in
  cut_at_keyframes (lwritten tr) gs -> views_at s v i -> reached s i gs -> ~ In LHang (results v tr) ->
  snd (lstep m w s (LPoll v fuel order)) = LWait -> up_to_date v tr.
Proof. exact waits. Qed.
Print Assumptions C132_waiting_partial.

(** A viewer gives up the rest of a group only for a frame of a later group that is ahead of the last one shown by at least the
    latency it asked for. *)
Theorem C166_gives_up : forall m w ops v a e b e' c q k f q' k' f' gs L, (62 <= w)%N -> Forall lmodest ops ->
  let tr := snd (lrun m w live_new ops) in
  tr = a ++ e :: b ++ e' :: c -> shown v [e] = [(q, k, f)] -> shown v b = [] -> shown v [e'] = [(q', k', f')] ->
  ~ In LHang (results v tr) -> (L <= latency v a)%N -> Forall (asks_for v L) b -> cut_at_keyframes (lwritten tr) gs ->
  q <> q' -> group_of gs q (S k) \/ (mf_ts f + L <= mf_ts f')%N.
Proof. exact gives_up. Qed.
Print Assumptions C166_gives_up.

(** * A case *)

Definition frame (ms : N) (key : bool) (b : byte) : mframe := MFrame (ms * 1000) key [b].
Definition first_key (f : mframe) : list lop := LWrite f :: repeat LStep 6.
Definition next_key (f : mframe) : list lop := LWrite f :: repeat LStep 7.
Definition delta (f : mframe) : list lop := LWrite f :: repeat LStep 4.
Definition sched : list accept := repeat (Acc 100) 10.
Definition give (l k : nat) (b : bytes) (e : ending) : lop := LNet (NArrive l k true false sched (Reader b (Recv [] e))).

(** Through one relay. *)
Definition chain_ops : list lop :=
  [LNet (NOpen 0 0 7 0); LNet (NOpen 1 2 9 0); LView 2 2] ++
  first_key (frame 0 true x61) ++ delta (frame 1 false x62) ++
  [LNet (NPoll 0); give 0 0 [x00; x07; x00; x02; x00; x61; x02; x01; x62] Open; LNet (NPoll 1);
   give 1 0 [x00; x09; x00; x02; x00; x61; x02] Open; LPoll 0 9 []; LPoll 0 9 []; LPoll 0 9 []] ++
  next_key (frame 2 true x63) ++
  [LNet (NPoll 0); give 0 0 [x00; x07; x00; x02; x00; x61; x02; x01; x62] Fin;
   give 0 1 [x00; x07; x01; x02; x02; x63] Open; LNet (NPoll 1);
   give 1 0 [x00; x09; x00; x02; x00; x61; x02; x01; x62] Fin; give 1 1 [x00; x09; x01; x02; x02; x63] Open;
   LPoll 0 9 []; LPoll 0 9 []; LPoll 0 9 []; LPoll 0 9 []].
Definition chain_run := lrun Release 64 live_new chain_ops.

Ltac cut_tac :=
  unfold cut_at_keyframes; repeat split; try reflexivity;
  repeat (constructor; [eexists; eexists; split; [reflexivity|repeat constructor]|]); constructor.
Ltac modest_tac := repeat apply Forall_cons; try exact I; try apply Forall_nil; vm_compute; repeat split; reflexivity.

Example C130_meets :
  Forall lmodest chain_ops /\ shown 0 (snd chain_run) = [(0%N, 0, frame 0 true x61); (0%N, 1, frame 1 false x62); (1%N, 0, frame 2 true x63)].
Proof. split; [modest_tac|vm_compute; reflexivity]. Qed.

Example C131_meets : Forall lmodest chain_ops /\ ~ In LHang (results 0 (snd chain_run)) /\ length (results 0 (snd chain_run)) = 7.
Proof.
  split; [modest_tac|]. split; [|vm_compute; reflexivity]. vm_compute. intuition discriminate.
Qed.

Definition chain_groups : list (list mframe) := [[frame 0 true x61; frame 1 false x62]; [frame 2 true x63]].
Example C132_meets : cut_at_keyframes (lwritten (snd chain_run)) chain_groups /\ views_at (fst chain_run) 0 2 /\
  reached (fst chain_run) 2 chain_groups /\ ~ In LHang (results 0 (snd chain_run)) /\ snd (lstep Release 64 (fst chain_run) (LPoll 0 9 [])) = LWait.
Proof.
  split; [|split; [|split; [|split]]].
  - assert (E : lwritten (snd chain_run) = concat chain_groups) by (vm_compute; reflexivity). rewrite E. cut_tac.
  - eexists. split; vm_compute; reflexivity.
  - do 4 eexists. repeat (split; [vm_compute; reflexivity|]). split; [vm_compute; repeat constructor|].
    intros [|[|[|j]]] h'; vm_compute; intros E N; try discriminate; [|congruence]. injection E as <-. split; [discriminate|]. repeat constructor; discriminate.
  - vm_compute. intuition discriminate.
  - vm_compute. reflexivity.
Qed.

(** * A viewer that is overtaken *)

(** It is in group 0 when groups 1 and 2 are published; the publisher gives up group 0, and the viewer's
    reader fails, whatever it does next. *)
Definition slow_ops : list lop :=
  [LNet (NOpen 0 0 7 0); LView 1 2] ++ first_key (frame 0 true x61) ++
  [LNet (NPoll 0); give 0 0 [x00; x07; x00; x02; x00; x61] Open; LPoll 0 9 []; LPoll 0 9 []] ++
  next_key (frame 1 true x62) ++ [LNet (NPoll 0)] ++ next_key (frame 2 true x63) ++
  [LNet (NPoll 0); give 0 0 [x00; x07; x00; x02; x00; x61] Reset;
   give 0 1 [x00; x07; x01; x02; x01; x62] Fin; give 0 2 [x00; x07; x02; x02; x02; x63] Open].
Definition slow_run := lrun Release 64 live_new slow_ops.
Definition slow_groups : list (list mframe) := [[frame 0 true x61]; [frame 1 true x62]; [frame 2 true x63]].
Lemma slow_stays ps : lrun Release 64 (fst slow_run) (polls 0 ps) = (fst slow_run, map (fun p => (LPoll 0 (fst p) (snd p), LErr)) ps).
Proof.
  induction ps as [|[fuel order] ps IH]; [reflexivity|]. cbn [polls map lrun fst snd].
  replace (lstep Release 64 (fst slow_run) (LPoll 0 fuel order)) with (fst slow_run, LErr) by (vm_compute; reflexivity).
  fold (polls 0 ps). rewrite IH. reflexivity.
Qed.
Lemma lrun_app m w a : forall s b, lrun m w s (a ++ b) =
  (fst (lrun m w (fst (lrun m w s a)) b), snd (lrun m w s a) ++ snd (lrun m w (fst (lrun m w s a)) b)).
Proof.
  induction a as [|o a IH]; intros s b; cbn [app lrun fst snd]; [apply surjective_pairing|].
  destruct (lstep m w s o) as [s1 x]. rewrite IH. destruct (lrun m w s1 a) as [s2 tr]. reflexivity.
Qed.

Lemma slow_after ps : snd (lrun Release 64 live_new (slow_ops ++ polls 0 ps)) =
  snd slow_run ++ map (fun p => (LPoll 0 (fst p) (snd p), LErr)) ps.
Proof. rewrite lrun_app. generalize (slow_stays ps). unfold slow_run. intros E. rewrite E. reflexivity. Qed.
Lemma after_results tr ps : results 0 (tr ++ map (fun p : nat * list nat => (LPoll 0 (fst p) (snd p), LErr)) ps) = results 0 tr ++ map (fun _ => LErr) ps.
Proof. unfold results. rewrite flat_map_app. f_equal. induction ps as [|p ps IH]; [reflexivity|]. exact (f_equal (cons LErr) IH). Qed.
Lemma after_shown tr ps : shown 0 (tr ++ map (fun p : nat * list nat => (LPoll 0 (fst p) (snd p), LErr)) ps) = shown 0 tr.
Proof. unfold shown. rewrite flat_map_app. etransitivity; [|apply app_nil_r]. f_equal. induction ps as [|p ps IH]; [reflexivity|]. exact IH. Qed.
Lemma after_written tr ps : lwritten (tr ++ map (fun p : nat * list nat => (LPoll 0 (fst p) (snd p), LErr)) ps) = lwritten tr.
Proof. unfold lwritten. rewrite flat_map_app. etransitivity; [|apply app_nil_r]. f_equal. induction ps as [|p ps IH]; [reflexivity|]. exact IH. Qed.
Lemma slow_shown : shown 0 (snd slow_run) = [] ++ [(0%N, 0, frame 0 true x61)].
Proof. vm_compute. reflexivity. Qed.
Lemma slow_written : lwritten (snd slow_run) = [frame 0 true x61; frame 1 true x62] ++ [frame 2 true x63].
Proof. vm_compute. reflexivity. Qed.

Theorem C132_overtaken_refuted : exists m ops v i gs, Forall lmodest ops /\
  let s := fst (lrun m 64 live_new ops) in let tr := snd (lrun m 64 live_new ops) in
  cut_at_keyframes (lwritten tr) gs /\ views_at s v i /\ reached s i gs /\ nothing_lost s /\ ~ In LErr (results v tr) /\
  forall ps, let tr' := snd (lrun m 64 live_new (ops ++ polls v ps)) in
    results v tr' = results v tr ++ map (fun _ => LErr) ps /\ ~ up_to_date v tr'.
Proof.
  exists Release, slow_ops, 0, 1, slow_groups. split; [modest_tac|]. cbv zeta. split; [|split; [|split; [|split; [|split]]]].
  - generalize slow_written. unfold slow_run. intros E. rewrite E. cut_tac.
  - eexists. split; vm_compute; reflexivity.
  - do 4 eexists. repeat (split; [vm_compute; reflexivity|]). split; [vm_compute; repeat constructor|].
    intros [|[|[|[|j]]]] h'; vm_compute; intros E N; try discriminate; try congruence; injection E as <-; (split; [discriminate|]); repeat constructor; discriminate.
  - vm_compute. repeat constructor.
  - vm_compute. intuition discriminate.
  - intros ps. rewrite slow_after, after_results. unfold slow_run at 1. split; [reflexivity|].
    intros (pre & q & k & f & earlier & E1 & E2). rewrite after_shown, slow_shown in E1. rewrite after_written, slow_written in E2.
    apply app_inj_tail in E1. apply app_inj_tail in E2. destruct E1 as (_ & E1), E2 as (_ & <-).
    injection E1 as _ _ E1. vm_compute in E1. destruct (Nat.eqb k 0); discriminate E1.
Qed.
Print Assumptions C132_overtaken_refuted.

(** Of the first group only one frame arrives; the second is ahead of it by the latency. *)
Definition late_ops : list lop :=
  [LNet (NOpen 0 0 7 0); LView 1 2; LLatency 0 2000] ++
  first_key (frame 0 true x61) ++ delta (frame 1 false x62) ++
  [LNet (NPoll 0); give 0 0 [x00; x07; x00; x02; x00; x61] Open; LPoll 0 9 []; LPoll 0 9 []] ++
  next_key (frame 2 true x63) ++
  [LNet (NPoll 0); give 0 1 [x00; x07; x01; x02; x02; x63] Open; LPoll 0 9 []; LPoll 0 9 [0]; LPoll 0 9 []].
Definition late_run := lrun Release 64 live_new late_ops.
Definition late_groups : list (list mframe) := [[frame 0 true x61; frame 1 false x62]; [frame 2 true x63]].
Example C166_meets : Forall lmodest late_ops /\ cut_at_keyframes (lwritten (snd late_run)) late_groups /\ ~ In LHang (results 0 (snd late_run)) /\
  exists a e b e' c, snd late_run = a ++ e :: b ++ e' :: c /\ shown 0 [e] = [(0%N, 0, frame 0 true x61)] /\ shown 0 b = [] /\
    shown 0 [e'] = [(1%N, 0, frame 2 true x63)] /\ latency 0 a = 2000%N /\ Forall (asks_for 0 2000) b /\ ~ group_of late_groups 0 1.
Proof.
  split; [modest_tac|]. split.
  { assert (E : lwritten (snd late_run) = concat late_groups) by (vm_compute; reflexivity). rewrite E. cut_tac. }
  split; [vm_compute; intuition discriminate|].
  set (tr := snd late_run). set (d := (LDrop, LUnit)). exists (firstn 18 tr), (nth 18 tr d), (firstn 12 (skipn 19 tr)), (nth 31 tr d), (skipn 32 tr).
  split; [vm_compute; reflexivity|]. split; [vm_compute; reflexivity|]. split; [vm_compute; reflexivity|]. split; [vm_compute; reflexivity|].
  split; [vm_compute; reflexivity|]. split; [vm_compute; repeat constructor|]. intros (g & E & N). cbn in E. injection E as <-. discriminate.
Qed.
