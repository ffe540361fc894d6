(** Properties C68, C75, C78: the relay's HTTP interface. *)
From Coq Require Import NArith List Bool.
From Coq Require Import Init.Byte Strings.Byte.
From Verif.Model Require Import Base ErrorCode Stream Frame FrameSys GroupSys Map OriginSys Text Web.
From Verif.Spec Require Import GroupSpec OriginSpec WebSpec.
From Verif.Proofs Require Import WebP.
Import ListNotations.
Open Scope nat_scope.

(** * C68 *)
(** The path is split at its last slash, losslessly. *)
Theorem C68_split : forall path b t, fetch_path path = Some (b, t) <-> path = b ++ slash :: t /\ ~ In slash t.
Proof. exact fetch_some. Qed.
Print Assumptions C68_split.
Theorem C68_refused : forall path, fetch_path path = None <-> ~ In slash path.
Proof. exact fetch_none. Qed.
Print Assumptions C68_refused.
(** Nothing but the named broadcast and track is asked for; the answer to each outcome. *)
Theorem C68_answer : forall (B G : Type) (get : bytes -> option B) (next : B -> bytes -> option G + error) b t, ~ In slash t ->
  serve_fetch get next (b ++ slash :: t) =
  match get b with
  | None => inr NotFound
  | Some x => match next x t with inl (Some g) => inl g | inl None => inr NotFound | inr _ => inr InternalError end
  end.
Proof.
  intros B G get next b t H. unfold serve_fetch. rewrite (proj2 (fetch_some _ b t)) by auto. reflexivity.
Qed.
Print Assumptions C68_answer.
Theorem C68_bad_request : forall (B G : Type) (get : bytes -> option B) (next : B -> bytes -> option G + error) path, ~ In slash path ->
  serve_fetch get next path = inr BadRequest.
Proof. intros B G get next path H. unfold serve_fetch. rewrite (proj2 (fetch_none _)) by auto. reflexivity. Qed.
Print Assumptions C68_bad_request.
(** "a/b/c", "/c", "ab", "a/". *)
Example C68_example :
  fetch_path [x61; x2f; x62; x2f; x63] = Some ([x61; x2f; x62], [x63]) /\ fetch_path [x2f; x63] = Some ([], [x63]) /\
  fetch_path [x61; x62] = None /\ fetch_path [x61; x2f] = Some ([x61], []).
Proof. repeat split. Qed.

(** * C75 *)
(** False: the response was polled before the rest was written; the writer appends a frame, finishes it
    and the group; nothing wakes the response, and it would have been ready. *)
Theorem C75_continues_refuted : exists ops ops' s tr s' tr' d,
  wrun 64 (web_new 64) ops = (s, tr) /\ snd (wstep 64 s WPoll) = WPolled APending /\
  wrun 64 (fst (wstep 64 s WPoll)) ops' = (s', tr') /\ Forall (fun o => o <> WPoll) ops' /\ ~ woken tr' /\
  snd (wstep 64 s' WPoll) = WPolled (AOk (Some d)) /\ d <> [].
Proof.
  set (ops := [WOther (GNewFrame 1); WOther (GFrame 0 (FConsume 0)); WOther (GAppend 0 0 0)]).
  set (ops' := [WOther (GFrame 0 (FWrite 0 [x61])); WOther (GFrame 0 (FFinish 0)); WOther (GFinish 0)]).
  set (s := fst (wrun 64 (web_new 64) ops)). set (s1 := fst (wstep 64 s WPoll)).
  exists ops, ops', s, (snd (wrun 64 (web_new 64) ops)), (fst (wrun 64 s1 ops')), (snd (wrun 64 s1 ops')), [x61].
  split; [unfold s; destruct (wrun 64 (web_new 64) ops); reflexivity|]. split; [vm_compute; reflexivity|].
  split; [fold s1; destruct (wrun 64 s1 ops'); reflexivity|]. split; [repeat constructor; discriminate|].
  split; [|split; [vm_compute; reflexivity|discriminate]].
  assert (E : map snd (snd (wrun 64 s1 ops')) = [WDid (GFrameOut FUnit) false; WDid (GFrameOut FUnit) false; WDid GUnit false]) by (vm_compute; reflexivity).
  intros (o & x & H). apply (in_map snd) in H. rewrite E in H. cbn in H. destruct H as [H|[H|[H|[]]]]; discriminate.
Qed.
Print Assumptions C75_continues_refuted.
(** In every history: nothing that happens to the group ever wakes the response. *)
Theorem C75_never_woken : forall w ops s tr, wrun w (web_new w) ops = (s, tr) -> ~ woken tr.
Proof. intros w ops s tr R. exact (proj2 (sim_run w ops s tr R)). Qed.
Print Assumptions C75_never_woken.
(** Whenever it is polled, however often it was polled in vain before: what it delivers is each frame of
    the group, whole, in order, each once. *)
Theorem C75_in_order_partial : forall w ops s tr, wrun w (web_new w) ops = (s, tr) ->
  let frames := appended (group_events tr) in
  length (pieces tr) <= length frames /\
  Forall2 (fun d e => d = payload (gs_heap (ws_group s)) e /\ frame_closed (gs_heap (ws_group s)) e <> None)
    (pieces tr) (firstn (length (pieces tr)) frames).
Proof. exact body_in_order. Qed.
Print Assumptions C75_in_order_partial.
(** The exact result of a poll: pending only if the next frame, or the group, can still be written. *)
Theorem C75_poll_result : forall w ops s tr s' x, wrun w (web_new w) ops = (s, tr) -> wstep w s WPoll = (s', x) ->
  let frames := appended (group_events tr) in
  let n := length (pieces tr) in
  (exists e fs, nth_error frames n = Some e /\ nth_error (gs_heap (ws_group s)) (fst e) = Some fs /\
   x = WPolled (match fs_closed (sy_state fs) with
                | Some Finished => AOk (Some (payload (gs_heap (ws_group s)) e))
                | Some (Failed e) => AErr e
                | None => if fsys_alive fs then APending else AErr Cancel
                end)) \/
  (n = length frames /\
   x = WPolled (match gverdict (group_events tr) with
                | Some Finished => AOk None
                | Some (Failed e) => AErr e
                | None => if gsys_alive (ws_group s) then APending else AErr Cancel
                end)).
Proof. exact poll_result. Qed.
Print Assumptions C75_poll_result.
Example C75_example :
  map snd (snd (wrun 64 (web_new 64)
    [WPoll; WOther (GNewFrame 2); WOther (GFrame 0 (FConsume 0)); WPoll; WOther (GAppend 0 0 0); WPoll; WOther (GFrame 0 (FWrite 0 [x61])); WPoll;
     WOther (GFrame 0 (FWrite 0 [x62])); WOther (GFrame 0 (FFinish 0)); WPoll; WPoll; WOther (GFinish 0); WPoll])) =
  [WPolled APending; WDid GUnit false; WDid (GFrameOut FUnit) false; WPolled APending; WDid (GAppended 0) false; WPolled APending;
   WDid (GFrameOut FUnit) false; WPolled APending; WDid (GFrameOut FUnit) false; WDid (GFrameOut FUnit) false;
   WPolled (AOk (Some [x61; x62])); WPolled APending; WDid GUnit false; WPolled (AOk None)].
Proof. vm_compute. reflexivity. Qed.

(** * C78 *)
(** What each origin contributes: the broadcasts active below the prefix when the page was asked for, in
    some order, and those announced until the page was made. *)
Theorem C78_listed : forall ops s tr p pre ks s' c ops' s2 tr2,
  orun osys_new ops = (s, tr) -> ostep s (OConsume p pre ks) = (s', OConsumer c) ->
  orun s' ops' = (s2, tr2) -> snd (ostep s2 (OPop c)) = OEmpty ->
  exists snap, snapshot pre tr snap /\ got c tr2 = snap ++ later pre tr2.
Proof. exact listed. Qed.
Print Assumptions C78_listed.
(** The lines of the page are those paths, when none contains a newline and there is one. *)
Theorem C78_lines_partial : forall local remote,
  local ++ remote <> [] -> Forall (fun x => ~ In newline (fst x)) (local ++ remote) ->
  split newline (announced_page local remote) = map fst (local ++ remote).
Proof.
  intros l r N F. unfold announced_page. rewrite <- map_app. apply split_join.
  - intros E. apply map_eq_nil in E. auto.
  - rewrite Forall_map. exact F.
Qed.
Print Assumptions C78_lines_partial.
(** False in general: one broadcast "a<newline>b" looks like two, and no broadcast like one at the prefix itself. *)
Theorem C78_page_refuted : exists l1 l2 r1 r2 : list (bytes * nat),
  announced_page l1 r1 = announced_page l2 r2 /\ length (l1 ++ r1) <> length (l2 ++ r2).
Proof. exists [([x61; x0a; x62], 0)], [([x61], 0); ([x62], 1)], [], []. split; [reflexivity|discriminate]. Qed.
Print Assumptions C78_page_refuted.
Theorem C78_empty_refuted : exists l1 l2 : list (bytes * nat),
  announced_page l1 [] = announced_page l2 [] /\ l1 = [] /\ l2 <> [].
Proof. exists [], [([], 0)]. repeat split. discriminate. Qed.
Print Assumptions C78_empty_refuted.
Example C78_example :
  let ops := [ONew; ONew; OPublish 0 [x61; x62] 0; OPublish 0 [x62] 1; OConsume 0 [x61] []; OPop 0; OPop 0] in
  got 0 (snd (orun osys_new ops)) = [([x62], 0)] /\ announced_page [([x62], 0)] [([x63], 1)] = [x62; x0a; x63].
Proof. repeat split. Qed.
