(** The relay's HTTP interface. *)
From Coq Require Import NArith ZArith List Lia Bool.
From Coq Require Import Init.Byte Strings.Byte.
From Coq Require Import ZifyBool ZifyNat ZifyN.
From Verif.Model Require Import Base ErrorCode Stream Frame FrameSys GroupSys Map OriginSys Text Web.
From Verif.Spec Require Import GroupSpec OriginSpec WebSpec.
From Verif.Proofs Require Import TableP MapP TextP GroupP GroupTop OriginP OriginTop.
Import ListNotations.
Open Scope nat_scope.

(** ** Paths *)
Lemma fetch_some path b t : fetch_path path = Some (b, t) <-> path = b ++ slash :: t /\ ~ In slash t.
Proof.
  unfold fetch_path. pose proof (split_ne slash path) as Ne. split.
  - destruct (Nat.ltb_spec (length (split slash path)) 2) as [|L]; [discriminate|].
    destruct (rev (split slash path)) as [|t' rest] eqn:E; [discriminate|]. intros [= <- <-].
    assert (S : split slash path = rev rest ++ [t']) by (rewrite <- (rev_involutive (split slash path)), E; reflexivity).
    split.
    + rewrite <- join_app. { rewrite <- S. symmetry. apply join_split. }
      intros Z. rewrite S, Z in L. cbn in L. lia.
    + apply (split_no slash path). rewrite S. apply in_app_iff. right. left. auto.
  - intros [-> Nt]. assert (S : split slash (b ++ slash :: t) = split slash b ++ [t]).
    { clear Ne. induction b as [|x b IH]; cbn.
      - rewrite split_free; auto.
      - rewrite IH. destruct (Byte.eqb x slash); auto. pose proof (split_ne slash b). destruct (split slash b); [congruence|]. auto. }
    rewrite S, app_length, rev_app_distr. cbn [length rev app]. pose proof (split_ne slash b) as Nb.
    destruct (Nat.ltb_spec (length (split slash b) + 1) 2) as [L|L]; [destruct (split slash b); [congruence|cbn in L; lia]|].
    rewrite rev_involutive, join_split. auto.
Qed.
Lemma fetch_none path : fetch_path path = None <-> ~ In slash path.
Proof.
  split.
  - intros E H. apply in_split in H as (a & c & ->). 
    assert (exists b t, a ++ slash :: c = b ++ slash :: t /\ ~ In slash t) as (b & t & Eb & Nt).
    { destruct (rsplit_once slash (a ++ slash :: c)) as [[b t]|] eqn:R.
      - apply rsplit_some in R as [R1 R2]. eauto.
      - apply (proj1 (rsplit_none _ _)) in R. destruct R. apply in_app_iff. right. left. auto. }
    rewrite Eb in E. rewrite (proj2 (fetch_some _ b t)) in E; [discriminate|auto].
  - intros N. destruct (fetch_path path) as [[b t]|] eqn:E; auto. apply fetch_some in E as [-> _]. destruct N. apply in_app_iff. right. left. auto.
Qed.

(** ** The body *)
Definition upd (s : gsys) (g : gcons) : gsys := gwith_cons s (set_nth 0 (Some g) (gs_cons s)).

Lemma set_nth_comm {A} i j (x y : A) l : i <> j -> set_nth i x (set_nth j y l) = set_nth j y (set_nth i x l).
Proof. revert i j; induction l; intros [|i] [|j] H; cbn; auto; try congruence. f_equal. apply IHl. lia. Qed.

Lemma foreign_commutes w s o s' x g : foreign o = true -> get (gs_cons s) 0 = Some g -> gstep w s o = (s', x) ->
  get (gs_cons s') 0 = Some g /\ forall g2, gstep w (upd s g2) o = (upd s' g2, x).
Proof.
  intros F G B. assert (L : exists r, gs_cons s = Some g :: r).
  { unfold get in G. destruct (gs_cons s) as [|[g'|] r]; cbn in G; try discriminate. injection G as ->. eauto. }
  destruct s as [heap frames closed prods guards cons]. cbn in L. destruct L as [r ->]. unfold upd. cbn in *.
  destruct o; cbn in *.
  all: try (injection B as <- <-; cbn; split; auto; fail).
  - destruct (nth_error heap f) as [fs|]; [|injection B as <- <-; split; auto]. destruct (fstep w fs o) as [fs' y]. injection B as <- <-. cbn. split; auto.
  - destruct (get prods p) as [u|]; [|injection B as <- <-; split; auto]. destruct (nth_error heap f) as [fs|]; [|injection B as <- <-; split; auto].
    destruct (get (sy_cons fs) c) as [i|]; [|injection B as <- <-; split; auto]. destruct closed; injection B as <- <-; cbn; split; auto.
  - destruct (get prods p) as [u|]; injection B as <- <-; cbn; split; auto.
  - destruct (get prods p) as [u|]; injection B as <- <-; cbn; split; auto.
  - destruct (get prods p) as [u|]; injection B as <- <-; cbn; split; auto.
  - destruct (get prods p) as [u|]; injection B as <- <-; cbn; split; auto.
  - destruct (get prods p) as [u|]; injection B as <- <-; cbn; split; auto.
  - destruct guards; injection B as <- <-; cbn; split; auto.
  - destruct (get prods p) as [u|]; injection B as <- <-; cbn; split; auto.
  - destruct c as [|c]; [discriminate|]. change (get (Some g :: r) (S c)) with (get r c) in B.
    change (gsys_alive (GSys heap frames closed prods guards (Some g :: r))) with (live prods || negb (Nat.eqb guards 0)) in B.
    destruct (get r c) as [h|] eqn:Gc.
    + destruct (group_next _ frames closed h) as [a h'] eqn:E. injection B as <- <-. split; [destruct a; reflexivity|].
      intros g2. change (get (Some g2 :: r) (S c)) with (get r c). rewrite Gc.
      match goal with |- context[group_next ?a] => change a with (live prods || negb (Nat.eqb guards 0)) end.
      rewrite E. destruct a; reflexivity.
    + injection B as <- <-. split; auto. intros g2. change (get (Some g2 :: r) (S c)) with (get r c). rewrite Gc. reflexivity.
  - destruct c as [|c]; [discriminate|]. change (get (Some g :: r) (S c)) with (get r c) in B.
    change (gsys_alive (GSys heap frames closed prods guards (Some g :: r))) with (live prods || negb (Nat.eqb guards 0)) in B.
    destruct (get r c) as [h|] eqn:Gc.
    + destruct (group_read _ heap frames closed h) as [[a h']|] eqn:E; injection B as <- <-; (split; [reflexivity|]);
      intros g2; change (get (Some g2 :: r) (S c)) with (get r c); rewrite Gc;
      match goal with |- context[group_read ?a] => change a with (live prods || negb (Nat.eqb guards 0)) end;
      rewrite E; reflexivity.
    + injection B as <- <-. split; auto. intros g2. change (get (Some g2 :: r) (S c)) with (get r c). rewrite Gc. reflexivity.
  - destruct c as [|c]; [discriminate|]. change (get (Some g :: r) (S c)) with (get r c) in B.
    destruct (get r c) as [h|] eqn:Gc; injection B as <- <-; (split; [reflexivity|]); intros g2; change (get (Some g2 :: r) (S c)) with (get r c); rewrite Gc; reflexivity.
  - destruct c as [|c]; [discriminate|]. change (get (Some g :: r) (S c)) with (get r c) in B.
    destruct (get r c) as [h|] eqn:Gc; injection B as <- <-; (split; [reflexivity|]); intros g2; change (get (Some g2 :: r) (S c)) with (get r c); rewrite Gc; reflexivity.
Qed.

Lemma serve_is_read alive heap frames closed i b :
  match serve_next alive heap frames closed (GC i None) b with
  | Panic => group_read alive heap frames closed (GC i b) = Panic
  | Val (a, g, b', r) => gc_active g = None /\ group_read alive heap frames closed (GC i b) = Val (a, GC (gc_index g) b')
  end.
Proof.
  unfold serve_next, group_read, group_next, serve_frame. destruct b as [[f j]|]; cbn.
  - destruct (nth_error heap f) as [fs|]; auto. destruct (frame_read_all _ j _) as [[[d|e| |] j']|]; cbn; auto.
  - destruct (nth_error frames i) as [[f j]|]; cbn.
    + destruct (nth_error heap f) as [fs|]; auto. destruct (frame_read_all _ j _) as [[[d|e| |] j']|]; cbn; auto.
    + destruct closed as [[|e]|]; cbn; auto. destruct alive; auto.
Qed.

(** The same as a reader of the group using [read_frame]. *)
Definition gops (e : wevent) : list gop := match e with (WOther o, WDid _ _) => [o] | (WPoll, _) => [GRead 0] | _ => [] end.
Definition gevs (e : wevent) : list gevent :=
  match e with
  | (WOther o, WDid x _) => [(o, x)]
  | (WPoll, WPolled a) => [(GRead 0, GGotAll a)]
  | (WPoll, WPanic) => [(GRead 0, GPanic)]
  | _ => []
  end.
Record sim (w : N) (s : wsys) (tr : list wevent) : Prop := {
  m_cons : exists i, get (gs_cons (ws_group s)) 0 = Some (GC i None) /\
    grun w gsys_new (GConsume 0 :: flat_map gops tr) = (upd (ws_group s) (GC i (ws_body s)), (GConsume 0, GUnit) :: flat_map gevs tr);
  m_wakers : ws_wakers s = [] }.

Lemma wrun_snoc w s ops o : wrun w s (ops ++ [o]) = let (s1, tr) := wrun w s ops in let (s2, x) := wstep w s1 o in (s2, tr ++ [(o, x)]).
Proof.
  revert s; induction ops as [|a ops IH]; intros s; cbn.
  - destruct (wstep w s o); auto.
  - destruct (wstep w s a) as [s1 x]. rewrite IH. destruct (wrun w s1 ops) as [s2 t]. destruct (wstep w s2 o); auto.
Qed.

Lemma upd_upd s g h : upd (upd s g) h = upd s h.
Proof. unfold upd. destruct s as [hp fr cl pr gu [|c cons]]; reflexivity. Qed.

Lemma sim_step w s tr o s' x : sim w s tr -> wstep w s o = (s', x) -> sim w s' (tr ++ [(o, x)]) /\ (forall y, x <> WDid y true).
Proof.
  intros [(i & G & R) Wk] B. destruct o as [o|]; cbn in B.
  - destruct (foreign o) eqn:F.
    + destruct (gstep w (ws_group s) o) as [g y] eqn:E. injection B as <- <-. rewrite Wk. cbn [existsb filter].
      destruct (foreign_commutes _ _ _ _ _ _ F G E) as [G' C]. split; [|discriminate]. split; [|reflexivity]. exists i. cbn [ws_group ws_body]. split; auto.
      rewrite !flat_map_app. cbn [flat_map gops gevs app]. rewrite app_comm_cons, grun_snoc, R, C. auto.
    + injection B as <- <-. split; [|discriminate]. split; auto. exists i. split; auto. rewrite !flat_map_app. cbn. rewrite !app_nil_r. auto.
  - rewrite G in B. pose proof (serve_is_read (gsys_alive (ws_group s)) (gs_heap (ws_group s)) (gs_frames (ws_group s)) (gs_closed (ws_group s)) i (ws_body s)) as S.
    destruct (serve_next _ _ _ _ (GC i None) (ws_body s)) as [[[[a g] b] r]|].
    + destruct S as [Sa S]. injection B as <- <-. split; [|discriminate]. split; [|exact Wk]. exists (gc_index g). cbn [ws_group ws_body].
      split. { destruct g as [gi ga]. cbn in Sa. subst ga. unfold get in *. destruct (gs_cons (ws_group s)) as [|[]]; try discriminate. reflexivity. }
      rewrite !flat_map_app. cbn [flat_map gops gevs app]. rewrite app_comm_cons, grun_snoc, R.
      assert (G2 : get (gs_cons (upd (ws_group s) (GC i (ws_body s)))) 0 = Some (GC i (ws_body s))).
      { unfold upd, get in *. cbn. destruct (gs_cons (ws_group s)) as [|[]]; try discriminate. reflexivity. }
      unfold gstep. rewrite G2.
      change (gsys_alive (upd (ws_group s) (GC i (ws_body s)))) with (gsys_alive (ws_group s)).
      change (gs_heap (upd (ws_group s) (GC i (ws_body s)))) with (gs_heap (ws_group s)).
      change (gs_frames (upd (ws_group s) (GC i (ws_body s)))) with (gs_frames (ws_group s)).
      change (gs_closed (upd (ws_group s) (GC i (ws_body s)))) with (gs_closed (ws_group s)).
      rewrite S. clear. destruct (ws_group s) as [hp fr cl pr gu [|c cons]]; reflexivity.
    + injection B as <- <-. split; [|discriminate]. split; [|exact Wk]. exists i. split; auto.
      rewrite !flat_map_app. cbn [flat_map gops gevs app]. rewrite app_comm_cons, grun_snoc, R.
      assert (G2 : get (gs_cons (upd (ws_group s) (GC i (ws_body s)))) 0 = Some (GC i (ws_body s))).
      { unfold upd, get in *. cbn. destruct (gs_cons (ws_group s)) as [|[]]; try discriminate. reflexivity. }
      unfold gstep. rewrite G2.
      change (gsys_alive (upd (ws_group s) (GC i (ws_body s)))) with (gsys_alive (ws_group s)).
      change (gs_heap (upd (ws_group s) (GC i (ws_body s)))) with (gs_heap (ws_group s)).
      change (gs_frames (upd (ws_group s) (GC i (ws_body s)))) with (gs_frames (ws_group s)).
      change (gs_closed (upd (ws_group s) (GC i (ws_body s)))) with (gs_closed (ws_group s)).
      rewrite S. auto.
Qed.
Lemma sim_new w : sim w (web_new w) [].
Proof. split; auto. exists 0. split; reflexivity. Qed.
Lemma sim_run w ops : forall s tr, wrun w (web_new w) ops = (s, tr) -> sim w s tr /\ ~ woken tr.
Proof.
  induction ops as [|o ops IH] using rev_ind; intros s tr.
  - intros [= <- <-]. split; [apply sim_new|]. intros (o & x & []).
  - rewrite wrun_snoc. destruct (wrun w (web_new w) ops) as [s1 tr1]. destruct (wstep w s1 o) as [s2 x] eqn:B. intros [= <- <-].
    destruct (IH _ _ eq_refl) as [S W]. destruct (sim_step _ _ _ _ _ _ S B) as (S' & N). split; auto.
    intros (o' & y & H). apply in_app_iff in H as [H|[H|[]]]; [apply W; exists o', y; auto|]. injection H as _ ->. apply (N y). auto.
Qed.

Definition gtrace (tr : list wevent) : list gevent := (GConsume 0, GUnit) :: flat_map gevs tr.
Lemma pieces_snoc tr e : pieces (tr ++ [e]) = pieces tr ++ pieces [e].
Proof. unfold pieces. rewrite flat_map_app. auto. Qed.
Lemma gtrace_snoc tr e : gtrace (tr ++ [e]) = gtrace tr ++ gevs e.
Proof. unfold gtrace. rewrite flat_map_app. cbn. rewrite app_nil_r. auto. Qed.
Lemma gtrace_appended tr : appended (gtrace tr) = appended (group_events tr).
Proof.
  unfold gtrace, group_events, appended. cbn. induction tr as [|[[o|] [x k|a| |]] tr IH]; cbn; auto. rewrite IH. auto.
Qed.
Lemma gtrace_verdict tr : gverdict (gtrace tr) = gverdict (group_events tr).
Proof.
  unfold gtrace, group_events, gverdict. cbn. generalize (@None outcome). induction tr as [|[[o|] [x k|a| |]] tr IH]; intros v; cbn; auto.
Qed.
Lemma foreign_watch o x l : foreign o = true -> 0 < length l -> nth 0 (gwatch l (o, x)) [] = nth 0 l [] /\ 0 < length (gwatch l (o, x)).
Proof.
  intros F L. destruct l as [|i l]; [cbn in L; lia|].
  destruct o, x; cbn in *; auto; try (split; [auto|lia]).
  - destruct a as [[e|]| | |]; cbn; auto. destruct c; [discriminate|]. cbn. split; [auto|lia].
  - destruct a as [[e|]| | |]; cbn; auto. destruct c; [discriminate|]. cbn. split; [auto|lia].
Qed.
Lemma got_run w ops : forall s tr, wrun w (web_new w) ops = (s, tr) ->
  nth 0 (obtained (gtrace tr)) [] = map IWhole (pieces tr) /\ 0 < length (obtained (gtrace tr)).
Proof.
  induction ops as [|o ops IH] using rev_ind; intros s tr; [intros [= <- <-]; cbn; auto|].
  rewrite wrun_snoc. destruct (wrun w (web_new w) ops) as [s1 tr1]. destruct (wstep w s1 o) as [s2 x] eqn:B. intros [= <- <-].
  destruct (IH _ _ eq_refl) as [I L]. rewrite gtrace_snoc, pieces_snoc, map_app, <- I. destruct o as [o|]; cbn in B.
  - destruct (foreign o) eqn:F.
    + destruct (gstep w _ o) as [g y]. injection B as <- <-. cbn [gevs pieces flat_map app map]. rewrite app_nil_r, obtained_snoc. apply foreign_watch; auto.
    + injection B as <- <-. cbn. rewrite !app_nil_r. auto.
  - destruct (get _ 0) as [g|]; [|injection B as <- <-; cbn; rewrite !app_nil_r; auto].
    destruct (serve_next _ _ _ _ g _) as [[[[a g'] b] r]|]; injection B as <- <-; cbn [gevs]; rewrite obtained_snoc.
    + revert I L. generalize (obtained (gtrace tr1)). intros [|i l] I L; [cbn in L; lia|]. destruct a as [[d|]|e| |]; cbn; rewrite ?app_nil_r; (split; [auto|lia]).
    + cbn; rewrite ?app_nil_r; auto.
Qed.

Lemma upd_alive s g : gsys_alive (upd s g) = gsys_alive s.
Proof. destruct s. reflexivity. Qed.

Lemma body_in_order w ops s tr : wrun w (web_new w) ops = (s, tr) ->
  let frames := appended (group_events tr) in
  length (pieces tr) <= length frames /\
  Forall2 (fun d e => d = payload (gs_heap (ws_group s)) e /\ frame_closed (gs_heap (ws_group s)) e <> None)
    (pieces tr) (firstn (length (pieces tr)) frames).
Proof.
  intros R. destruct (sim_run _ _ _ _ R) as [[(i & G & Rg) _] _]. destruct (got_run _ _ _ _ R) as [Go _].
  pose proof (obtained_in_order w (GConsume 0 :: flat_map gops tr) 0) as H. rewrite Rg in H. cbn [fst snd] in H.
  fold (gtrace tr) in H. rewrite Go, map_length, gtrace_appended in H. destruct H as [H1 H2]. split; auto.
  change (gs_heap (upd (ws_group s) (GC i (ws_body s)))) with (gs_heap (ws_group s)) in H2.
  remember (firstn (length (pieces tr)) (appended (group_events tr))) as l. clear - H2. revert l H2.
  induction (pieces tr) as [|d p IH]; intros l H; inversion H; subst; constructor; auto.
Qed.
Lemma poll_result w ops s tr s' x : wrun w (web_new w) ops = (s, tr) -> wstep w s WPoll = (s', x) ->
  let frames := appended (group_events tr) in
  let n := length (pieces tr) in
  (exists e fs, nth_error frames n = Some e /\ nth_error (gs_heap (ws_group s)) (fst e) = Some fs /\
   x = WPolled (match fs_closed (sy_state fs) with
                | Some Finished => AOk (Some (payload (gs_heap (ws_group s)) e))
                | Some (Failed e) => AErr e
                | None => if fsys_alive fs then APending else AErr Cancel
                end)) \/
  (n = length frames /\
   x = WPolled (match gverdict (group_events tr) with
                | Some Finished => AOk None
                | Some (Failed e) => AErr e
                | None => if gsys_alive (ws_group s) then APending else AErr Cancel
                end)).
Proof.
  intros R B frames n. destruct (sim_run _ _ _ _ R) as [Sm _]. destruct (sim_step _ _ _ _ _ _ Sm B) as [Sm' _].
  destruct Sm as [(i & G & Rg) Wk]. destruct (got_run _ _ _ _ R) as [Go _].
  destruct Sm' as [(i' & G' & Rg') _]. rewrite !flat_map_app in Rg'. cbn [flat_map gops app] in Rg'. rewrite app_comm_cons, grun_snoc, Rg in Rg'.
  destruct (gstep w (upd (ws_group s) (GC i (ws_body s))) (GRead 0)) as [t y] eqn:E.
  pose proof (group_read_result w (GConsume 0 :: flat_map gops tr) 0 t y) as H. rewrite Rg in H. cbn [fst snd] in H. specialize (H E).
  fold (gtrace tr) in H. rewrite Go, map_length, gtrace_appended, gtrace_verdict in H.
  change (gs_heap (upd (ws_group s) (GC i (ws_body s)))) with (gs_heap (ws_group s)) in H. rewrite upd_alive in H.
  injection Rg' as _ Ev. apply app_inv_head in Ev.
  assert (Y : match y with GGotAll a => x = WPolled a | GPanic => x = WPanic | _ => False end).
  { destruct x as [z k|a| |]; cbn in Ev; try discriminate; injection Ev as ->; auto. }
  assert (Nb : y <> GBad) by (intros ->; exact Y).
  destruct (H Nb) as [(e & fs & H1 & H2 & ->)|[H1 ->]].
  - left. exists e, fs. auto.
  - right. auto.
Qed.

(** ** The list of broadcasts *)
Lemma listed ops s tr p pre ks s' c ops' s2 tr2 : orun osys_new ops = (s, tr) -> ostep s (OConsume p pre ks) = (s', OConsumer c) ->
  orun s' ops' = (s2, tr2) -> snd (ostep s2 (OPop c)) = OEmpty ->
  exists snap, snapshot pre tr snap /\ got c tr2 = snap ++ later pre tr2.
Proof.
  intros R C R2 E. destruct (consume_receives _ _ _ _ _ _ _ _ R C) as (snap & Sn & Rc). exists snap. split; auto.
  destruct (Rc _ _ _ R2) as (rest & G & O). destruct rest as [|x rest]; [rewrite app_nil_r in G; auto|]. exfalso.
  cbn in E. destruct (get (os_cons s2) c) as [k|] eqn:Gc; [|discriminate].
  assert (Rd : reading s2 c) by (unfold reading; cbn; rewrite Gc; auto).
  destruct (O Rd x rest eq_refl) as [P|[P _]]; cbn in P; rewrite Gc in P.
  - destruct k as [pr u t rc l]. destruct rc; [discriminate|]. destruct u as [|[]]; discriminate.
  - destruct k as [pr u t rc l]. destruct rc; discriminate.
Qed.
Lemma split_join c l : l <> [] -> Forall (fun x => ~ In c x) l -> split c (join c l) = l.
Proof.
  induction l as [|x l IH]; [congruence|]. intros _ F. inversion F as [|? ? Hx Hl]; subst. destruct l as [|y l].
  - cbn. apply split_free. auto.
  - change (join c (x :: y :: l)) with (x ++ c :: join c (y :: l)). rewrite split_app by auto. rewrite IH; auto. discriminate.
Qed.
