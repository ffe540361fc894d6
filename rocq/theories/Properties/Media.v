(** Properties C53-C56, C79, C80: media tracks. *)
From Coq Require Import NArith List Bool Lia.
From Coq Require Import Init.Byte Strings.Byte.
From Verif.Model Require Import Base Coding ErrorCode Stream Frame FrameSys GroupSys TrackSys Media MediaRead.
From Verif.Spec Require Import TrackSpec MediaSpec MediaReadSpec.
From Verif.Proofs Require Import CodingP TrackP MediaP MediaReadP.
Import ListNotations.
Open Scope nat_scope.

(** * C53 *)
(** Whatever a reader returned is a prefix of its group, each frame with its timestamp to the
    microsecond and its payload; the keyframe flag marks the first. *)
Theorem C53_read_back : forall w m ops s tr, mrun w m msys_new ops = (s, tr) ->
  Forall (in_range w) (written tr) -> (N.of_nat (length (written tr)) < 2 ^ 64)%N ->
  forall r gr, nth_error (reader_groups tr) r = Some gr ->
  exists gs l, cut_at_keyframes (written tr) gs /\ nth_error gs (N.to_nat (g_seq gr)) = Some l /\
    read_by r tr = firstn (length (read_by r tr)) (seen_from 0 l).
Proof. intros w m ops s tr H R L. exact (media_read_back w m ops s tr H (conj R L)). Qed.
Print Assumptions C53_read_back.

(** Between writes, the next poll of a reader returns the next frame if there is one; at the end of
    its group it waits if the group is the newest and ends otherwise. *)
Theorem C53_next_read : forall w m ops s tr, mrun w m msys_new ops = (s, tr) ->
  Forall (in_range w) (written tr) -> (N.of_nat (length (written tr)) < 2 ^ 64)%N -> ms_job s = None ->
  forall r gr, nth_error (reader_groups tr) r = Some gr ->
  exists gs l, cut_at_keyframes (written tr) gs /\ nth_error gs (N.to_nat (g_seq gr)) = Some l /\
    snd (mstep w m s (MRead r)) =
      match nth_error (seen_from 0 l) (length (read_by r tr)) with
      | Some f => MGot (AOk (Some f))
      | None => if Nat.eqb (S (N.to_nat (g_seq gr))) (length gs) then MGot APending else MGot (AOk None)
      end.
Proof. intros w m ops s tr H R L. exact (media_next_read w m ops s tr H (conj R L)). Qed.
Print Assumptions C53_next_read.

(** Reading never fails to decode, and nothing panics but a write with a timestamp out of range. *)
Theorem C53_calm : forall w m ops s tr, mrun w m msys_new ops = (s, tr) ->
  Forall (in_range w) (written tr) -> (N.of_nat (length (written tr)) < 2 ^ 64)%N ->
  forall o x, In (o, x) tr -> x <> MGarbage /\ (x = MPanic -> exists f, o = MWrite f).
Proof. intros w m ops s tr H R L. exact (media_calm w m ops s tr H (conj R L)). Qed.
Print Assumptions C53_calm.
Theorem C53_panics_exactly : forall w m s f, ms_job s = None ->
  (snd (mstep w m s (MWrite f)) = MPanic <-> (2 ^ 62 <= (mf_ts f / 1000) mod 2 ^ 64)%N).
Proof.
  intros w m s f J. rewrite <- u64_encode_panic. cbn [mstep]. rewrite J. unfold media_header.
  destruct (u64_encode _); cbn; split; congruence.
Qed.
Print Assumptions C53_panics_exactly.

Definition c53_frames : list mframe :=
  [MFrame 5000 true [xaa]; MFrame 38999 false [xbb; xcc]; MFrame 100000000 true []; MFrame 133000000 false [xdd]].
Definition c53_write (f : mframe) : list mop := MWrite f :: repeat MStep 7.
Definition c53_ops : list mop :=
  MConsume :: c53_write (nth 0 c53_frames (MFrame 0 true [])) ++ [MNext 0; MRead 0; MRead 0] ++
  [MWrite (nth 1 c53_frames (MFrame 0 true [])); MStep; MStep; MRead 0; MStep; MRead 0; MStep; MRead 0; MRead 0] ++
  c53_write (nth 2 c53_frames (MFrame 0 true [])) ++ c53_write (nth 3 c53_frames (MFrame 0 true [])) ++
  [MNext 0; MRead 0; MRead 1; MRead 1; MRead 1].
Example C53_example :
  let tr := snd (mrun 64 Debug msys_new c53_ops) in
  written tr = c53_frames /\ ms_job (fst (mrun 64 Debug msys_new c53_ops)) = None /\
  reader_groups tr = [Group 0 0; Group 1 1] /\
  read_by 0 tr = [MFrame 5000 true [xaa]; MFrame 38000 false [xbb; xcc]] /\
  read_by 1 tr = [MFrame 100000000 true []; MFrame 133000000 false [xdd]] /\
  map snd (skipn (length tr - 4) tr) =
    [MGot (AOk None); MGot (AOk (Some (MFrame 100000000 true []))); MGot (AOk (Some (MFrame 133000000 false [xdd]))); MGot APending].
Proof. vm_compute. repeat split. Qed.

(** * C54 *)
Theorem C54_groups : forall w m ops s tr, mrun w m msys_new ops = (s, tr) ->
  Forall (in_range w) (written tr) -> (N.of_nat (length (written tr)) < 2 ^ 64)%N ->
  (** at any time, every group but the newest is complete *)
  (forall j g, nth_error (ms_groups s) j = Some g -> S j < length (ms_groups s) -> gs_closed g = Some Finished) /\
  (** between writes, the groups are those of the frames cut at keyframes, numbered from 0 *)
  (ms_job s = None -> exists gs, cut_at_keyframes (written tr) gs /\ length gs = length (ms_groups s) /\
    ts_latest (ms_track s) = match length gs with 0 => None | S k => Some (Group (N.of_nat k) k) end /\
    forall j g, nth_error (ms_groups s) j = Some g -> S j = length gs -> gs_closed g = None).
Proof. intros w m ops s tr H R L. exact (media_groups_state w m ops s tr H (conj R L)). Qed.
Print Assumptions C54_groups.
(** There is only one such cut. *)
Theorem C54_cut_unique : forall fs gs gs', cut_at_keyframes fs gs -> cut_at_keyframes fs gs' -> gs = gs'.
Proof. exact cut_unique. Qed.
Print Assumptions C54_cut_unique.
(** A first frame that is no keyframe is taken, and is read back flagged as one. *)
Theorem C54_first_frame_refuted : exists ops s tr f,
  mrun 64 Debug msys_new ops = (s, tr) /\ written tr = [f] /\ mf_key f = false /\
  Forall (fun e => snd e <> MPanic) tr /\ length (ms_groups s) = 1 /\
  read_by 0 tr = [MFrame (mf_ts f) true (mf_data f)].
Proof.
  set (f := MFrame 1000 false [xaa]).
  exists (MConsume :: c53_write f ++ [MNext 0; MRead 0]).
  exists (fst (mrun 64 Debug msys_new (MConsume :: c53_write f ++ [MNext 0; MRead 0]))).
  exists (snd (mrun 64 Debug msys_new (MConsume :: c53_write f ++ [MNext 0; MRead 0]))), f.
  split; [destruct (mrun 64 Debug msys_new _); reflexivity|]. vm_compute. repeat split.
  repeat (constructor; [discriminate|]). constructor.
Qed.
Print Assumptions C54_first_frame_refuted.
Example C54_example : cut_at_keyframes c53_frames [firstn 2 c53_frames; skipn 2 c53_frames].
Proof.
  split; [reflexivity|]. split.
  - repeat constructor; eexists _, _; (split; [reflexivity|]); repeat constructor.
  - repeat constructor. eexists _, _. split; reflexivity.
Qed.

(** * C55 *)
(** Buffering ahead stops exactly when the cutoff was already reached, or nothing is buffered and the
    next frame, if there is one, reaches the cutoff.  Otherwise it never does. *)
Theorem C55_stops_exactly : forall cutoff g env,
  (exists fuel, fst (buffer_until fuel cutoff g env) <> BLoop) <->
  (match rg_max g with Some m => (cutoff <= m)%N | None => False end \/
   (rg_buf g = [] /\ match env with FFrame ts :: _ => (cutoff <= ts)%N | _ => True end)).
Proof. exact buffer_exact. Qed.
Print Assumptions C55_stops_exactly.
(** When it stops, nothing is lost or reordered. *)
Theorem C55_order_partial : forall fuel cutoff g env b g', buffer_until fuel cutoff g env = (b, g') -> b <> BLoop ->
  g' = g \/ (rg_buf g = [] /\ exists ts env', env = FFrame ts :: env' /\
     g' = RG (rg_seq g) (S (rg_index g)) [RFrame (rg_seq g) (rg_index g) ts]
            (Some (N.max (match rg_max g with Some m => m | None => 0%N end) ts))).
Proof. exact buffer_keeps. Qed.
Print Assumptions C55_order_partial.
(** In a track reader: a pending group whose first frame is below the cutoff hangs the reader. *)
Theorem C55_reader_exactly : forall ops s tr fuel g i env, rrun rd_new ops = (s, tr) -> ~ In RHang (map snd tr) ->
  rd_cur s = Some g -> rg_buf g = [] -> (rd_max s + rd_lat s <= duration_max)%N -> i < length (rd_pending s) -> 1 < fuel ->
  snd (rstep s (RPoll fuel FWait NWait [(i, env)])) =
  match env with
  | FFrame ts :: _ => if (ts <? rd_max s + rd_lat s)%N then RHang else RSkip ts
  | _ => RWait
  end.
Proof. exact first_frame_decides. Qed.
Print Assumptions C55_reader_exactly.
(** Ordinary playback: latency 100 ms, one frame of group 0 played, group 1 starts 33 ms later. *)
Theorem C55_refuted : exists ops s tr i env, rrun rd_new ops = (s, tr) /\ ~ In RHang (map snd tr) /\
  forall fuel, snd (rstep s (RPoll fuel FWait NWait [(i, env)])) = RHang.
Proof.
  set (ops := [RLatency 100000000; RPoll 9 FWait (NGroup 0) []; RPoll 9 (FFrame 0) NWait []; RPoll 9 FWait (NGroup 1) []]).
  exists ops, (fst (rrun rd_new ops)), (snd (rrun rd_new ops)), 0, [FFrame 33000000].
  split; [reflexivity|]. split.
  - vm_compute. intuition discriminate.
  - intros fuel. assert (E : fst (rrun rd_new ops) = Rd (Some (RG 0 1 [] (Some 0%N))) [rg_new 1] 0 100000000) by reflexivity.
    rewrite E. unfold rstep. cbn [rd_max rd_lat rd_cur rg_buf]. change (duration_max <? 0 + 100000000)%N with false.
    cbn [select_rest]. unfold select_rest. cbn [buffering rd_pending nth_error rg_new].
    change (0 + 100000000)%N with 100000000%N. destruct (buffer_until fuel _ _ _) as [b g'] eqn:Eb.
    assert (Hb : b = BLoop).
    { assert (F : fresh (rg_new 1)) by (repeat split).
      destruct (fresh_poll fuel 100000000 (rg_new 1) [FFrame 33000000] F) as [(ts & e & _ & _ & H)|[(ts & e & g1 & H & L & _)|(H & _)]].
      - rewrite Eb in H. exact H.
      - injection H as <- <-. exfalso. apply L. reflexivity.
      - exfalso. eapply H. reflexivity. }
    rewrite Hb. reflexivity.
Qed.
Print Assumptions C55_refuted.
Example C55_example : buffer_until 5 100%N (rg_new 3) [FFrame 120; FFrame 150] =
   (BReady 120%N, RG 3 1 [RFrame 3 0 120] (Some 120%N)) /\
  fst (buffer_until 1000 100%N (rg_new 3) [FFrame 90; FFrame 150]) = BLoop /\
  buffer_until 5 100%N (rg_new 3) [FWait] = (BWait, rg_new 3).
Proof. vm_compute. auto. Qed.

(** * C56 *)
(** Groups come from a moq track consumer ([l]: any stretch of what consumer [c] obtained); whatever
    the readiness of groups and frames and the latencies set, the frames returned are in order: the
    next one of the same group, or the first one of a later group.  (A hung reader returns nothing more.) *)
Lemma increasing_part l1 l2 l3 : increasing (l1 ++ l2 ++ l3) -> increasing_seqs (map g_seq l2).
Proof.
  induction l1 as [|x l1 IH]; cbn; [|intros [_ H]; auto]. induction l2 as [|x l2 IH]; cbn; auto.
  intros [F I]. split; [|auto]. intros b Hb. apply in_map_iff in Hb as (g & <- & Hg).
  rewrite Forall_forall in F. apply F. apply in_app_iff. auto.
Qed.
Theorem C56_playback_order : forall m tops c l1 l l3 ops s tr,
  nth c (groups (snd (trun m tsys_new tops))) [] = l1 ++ l ++ l3 ->
  rrun rd_new ops = (s, tr) -> arrivals tr = map g_seq l ->
  ~ In RHang (map snd (removelast tr)) ->
  in_playback_order (played tr).
Proof.
  intros m tops c l1 l l3 ops s tr Hc H A NH. eapply playback_order; eauto. rewrite A.
  eapply increasing_part. rewrite <- Hc. apply readers_forward.
Qed.
Print Assumptions C56_playback_order.

Definition c56_ops : list rop :=
  [RPoll 9 FWait (NGroup 0) []; RPoll 9 (FFrame 10) NWait []; RPoll 9 FWait (NGroup 4) []; RPoll 9 FWait (NGroup 7) [];
   RPoll 9 FWait NWait [(1, [FFrame 50])]; RPoll 9 FWait NWait []; RPoll 9 (FFrame 60) NWait []; RPoll 9 FEnd NWait [];
   RPoll 9 FWait (NGroup 9) []; RPoll 9 (FFrame 70) NWait []].
Definition c56_tops : list top :=
  [TConsume 0; TInsert 0 (Group 0 0); TNext 0; TInsert 0 (Group 4 1); TNext 0; TInsert 0 (Group 7 2); TNext 0; TInsert 0 (Group 9 3); TNext 0].
Example C56_example : let tr := snd (rrun rd_new c56_ops) in
  nth 0 (groups (snd (trun Debug tsys_new c56_tops))) [] = [Group 0 0; Group 4 1; Group 7 2; Group 9 3] /\
  arrivals tr = [0; 4; 7; 9]%N /\
  played tr = [RFrame 0 0 10; RFrame 7 0 50; RFrame 7 1 60; RFrame 9 0 70] /\
  ~ In RHang (map snd tr).
Proof. vm_compute. repeat split. intuition discriminate. Qed.

(** * C79 *)
(** No panic as long as the latencies set and the timestamps received stay within a [Duration]. *)
Theorem C79_no_panic_partial : forall T L ops, (T + L <= duration_max)%N ->
  Forall (fun o => match o with
    | RLatency d => (d <= L)%N
    | RPoll _ cur _ bufs => Forall (fun a => match a with FFrame ts => (ts <= T)%N | _ => True end) [cur] /\
        Forall (fun b => Forall (fun a => match a with FFrame ts => (ts <= T)%N | _ => True end) (snd b)) bufs
    end) ops ->
  ~ In RPanics (map snd (snd (rrun rd_new ops))).
Proof. exact no_panic. Qed.
Print Assumptions C79_no_panic_partial.
(** The longest latency panics on the first read after a frame. *)
Theorem C79_latency_refuted : exists ops d, (d <= duration_max)%N /\
  map snd (snd (rrun rd_new (RLatency d :: ops))) = [RUnit; RArrived 0; RGot (RFrame 0 0 1000); RPanics].
Proof.
  exists [RPoll 9 FWait (NGroup 0) []; RPoll 9 (FFrame 1000) NWait []; RPoll 9 FWait NWait []], duration_max.
  split; [apply N.le_refl|]. vm_compute. reflexivity.
Qed.
Print Assumptions C79_latency_refuted.
Example C79_example : (2 ^ 62 * 1000 + 2 ^ 63 * 10 ^ 9 <= duration_max)%N.
Proof. vm_compute. discriminate. Qed.

(** * C80 *)
(** While its current group fails and nothing of it is buffered, the reader fails, whatever else
    arrives, and stays where it is. *)
Theorem C80_fails_exactly : forall s g fuel next bufs, rd_cur s = Some g -> rg_buf g = [] ->
  (rd_max s + rd_lat s <= duration_max)%N ->
  rstep s (RPoll fuel FFail next bufs) = (s, RErr).
Proof.
  intros s g fuel next bufs Ec Eb L. cbn [rstep]. rewrite (proj2 (N.ltb_ge _ _) L), Ec, Eb. reflexivity.
Qed.
Print Assumptions C80_fails_exactly.
(** So a newer group that already arrived is never played. *)
Theorem C80_refuted : exists ops s tr g, rrun rd_new ops = (s, tr) /\ rd_pending s = [g] /\
  forall polls, Forall (fun o => exists fuel next bufs, o = RPoll fuel FFail next bufs) polls ->
  fst (rrun s polls) = s /\ Forall (fun x => x = RErr) (map snd (snd (rrun s polls))).
Proof.
  set (ops := [RPoll 9 FWait (NGroup 0) []; RPoll 9 (FFrame 0) NWait []; RPoll 9 FWait (NGroup 1) []]).
  exists ops, (fst (rrun rd_new ops)), (snd (rrun rd_new ops)), (rg_new 1).
  split; [reflexivity|]. split; [reflexivity|].
  assert (E : fst (rrun rd_new ops) = Rd (Some (RG 0 1 [] (Some 0%N))) [rg_new 1] 0 0) by reflexivity. rewrite E. clear E.
  induction polls as [|o polls IH]; intros F; [split; [reflexivity|constructor]|].
  destruct (Forall_inv F) as (fuel & next & bufs & ->). specialize (IH (Forall_inv_tail F)).
  cbn [rrun]. rewrite (C80_fails_exactly _ (RG 0 1 [] (Some 0%N))); auto; [|vm_compute; discriminate].
  destruct (rrun _ polls) as [s2 tr]. cbn in *. destruct IH. split; auto.
Qed.
Print Assumptions C80_refuted.
Example C80_example : rd_cur (fst (rrun rd_new c56_ops)) = Some (RG 9 1 [] (Some 70%N)) /\
  snd (rstep (fst (rrun rd_new c56_ops)) (RPoll 9 FFail (NGroup 12) [])) = RErr.
Proof. vm_compute. auto. Qed.
