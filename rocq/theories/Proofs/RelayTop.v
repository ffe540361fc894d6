(** What the events of a relay determine. *)
From Coq Require Import NArith ZArith List Lia Bool.
From Coq Require Import Init.Byte Strings.Byte.
From Coq Require Import ZifyBool ZifyNat ZifyN.
From Verif.Model Require Import Base ErrorCode Stream Frame FrameSys Map OriginSys Text Auth Relay.
From Verif.Spec Require Import OriginSpec RelaySpec.
From Verif.Proofs Require Import TableP MapP BroadcastP OriginP OriginTop RelaySysP.
Import ListNotations.
Open Scope nat_scope.

Definition actions_of (e : option payload * (nat * nat)) : list action :=
  match e with (Some t, (p, r)) => accept_actions t p r | (None, (p, r)) => dial_actions p r end.
Definition justified (tr : list rlevent) (a : action) : Prop := exists e, In e (openings tr) /\ In a (actions_of e).
Definition free_of (tr : list rlevent) (i : nat) : Prop := 2 <= i /\ ~ In i (map (fun e => fst (snd e)) (openings tr)).
Definition pending (todo : list (list action)) (i : nat) : Prop :=
  i < 2 \/ exists n l a, nth_error todo n = Some l /\ In a l /\ refers i a = true.

Record rlinv (s : relay) (tr : list rlevent) (P : nat -> bytes) : Prop := {
  r_core : core (justified tr) (free_of tr) P (rl_origins s) (events tr) (rl_fwds s);
  r_open : forall j e, nth_error (openings tr) j = Some e -> snd e = (2 + 2 * j, 3 + 2 * j);
  r_len : length (rl_origins s) = 2 + 2 * length (openings tr);
  r_pubs : rl_pubs s = map (fun e => fst (snd e)) (openings tr);
  r_lent : length (rl_todo s) = length (openings tr);
  r_todo : forall n l, nth_error (rl_todo s) n = Some l -> exists e dn, nth_error (openings tr) n = Some e /\ actions_of e = dn ++ l /\
    forall src pre dst prefix, In (AForward src pre dst prefix) dn ->
    exists k f, nth_error (rl_fwds s) k = Some f /\ fw_src f = src /\ fw_dst f = dst /\ fw_prefix f = prefix /\ P k = pre;
  r_alive : forall i, pending (rl_todo s) i -> exists a, nth_error (rl_origins s) i = Some a /\ get (os_prods a) 0 = Some tt;
  r_closed : forall i j a b, nth_error (rl_origins s) i = Some a -> nth_error (rl_origins s) j = Some b -> os_closed a = os_closed b;
  r_seq : forall k f, nth_error (rl_fwds s) k = Some f -> exists l,
    got (fw_cons f) (history (fw_src f) tr) = l ++ hlist (fw_hold f) /\ passed k tr = RelaySpec.below (fw_prefix f) l;
  r_nopass : forall k, length (rl_fwds s) <= k -> passed k tr = [];
  r_started : forall k src pre c dst, started k src pre c dst tr -> P k = pre /\
    exists f, nth_error (rl_fwds s) k = Some f /\ fw_src f = src /\ fw_cons f = c /\ fw_dst f = dst;
  r_live : forall k f, nth_error (rl_fwds s) k = Some f -> fw_src f < 2 -> fw_over f = false }.

Lemma events_snoc tr e : events (tr ++ [e]) = events tr ++ ro_did (snd e).
Proof. unfold events. rewrite flat_map_app. cbn. rewrite app_nil_r. auto. Qed.
Lemma openings_snoc tr e : openings (tr ++ [e]) = openings tr ++ opening e.
Proof. unfold openings. rewrite flat_map_app. cbn. rewrite app_nil_r. auto. Qed.
Lemma passed_snoc k tr e : passed k (tr ++ [e]) = passed k tr ++ passed_of k e.
Proof. unfold passed. rewrite flat_map_app. cbn. rewrite app_nil_r. auto. Qed.
Lemma started_snoc k src pre c dst tr o x : ro_started x = None -> started k src pre c dst (tr ++ [(o, x)]) -> started k src pre c dst tr.
Proof.
  intros N (n & ks & H). apply in_app_iff in H as [H|[H|[]]]; [exists n, ks; auto|]. injection H as -> ->. discriminate.
Qed.
Lemma justified_same tr e a : opening e = [] -> justified tr a <-> justified (tr ++ [e]) a.
Proof. intros E. unfold justified. rewrite openings_snoc, E, app_nil_r. tauto. Qed.

Lemma core_ext (just just' : action -> Prop) (free free' : nat -> Prop) P os evs fs : (forall a, just a -> just' a) -> (forall i, free i -> free' i) ->
  core just free P os evs fs -> core just' free' P os evs fs.
Proof.
  intros J F C. split; try apply C.
  - intros k f H. apply J. eapply c_just; eauto.
  - intros i x b H. apply (c_told _ _ _ _ _ _ C) in H as [K|[(src & pre & prefix & suf & K1 & K2 & K3)|[K1 K2]]]; auto.
    right. left. exists src, pre, prefix, suf. auto.
Qed.

Lemma rlinv_next s tr P o x os' fs' todo' :
  rlinv s tr P -> opening (o, x) = [] -> ro_started x = None ->
  core (justified tr) (free_of tr) P os' (events tr ++ ro_did x) fs' ->
  length os' = length (rl_origins s) -> map ids fs' = map ids (rl_fwds s) ->
  length todo' = length (rl_todo s) ->
  (forall n l', nth_error todo' n = Some l' -> exists l d, nth_error (rl_todo s) n = Some l /\ l = d ++ l' /\
     forall src pre dst prefix, ~ In (AForward src pre dst prefix) d) ->
  (forall i a, nth_error (rl_origins s) i = Some a -> get (os_prods a) 0 = Some tt -> pending (rl_todo s) i ->
     exists a', nth_error os' i = Some a' /\ get (os_prods a') 0 = Some tt) ->
  (forall i j a b, nth_error os' i = Some a -> nth_error os' j = Some b -> os_closed a = os_closed b) ->
  (forall k f', nth_error fs' k = Some f' -> exists l,
    got (fw_cons f') (hist (fw_src f') (events tr ++ ro_did x)) = l ++ hlist (fw_hold f') /\ passed k tr ++ passed_of k (o, x) = RelaySpec.below (fw_prefix f') l) ->
  (forall k, length (rl_fwds s) <= k -> passed_of k (o, x) = []) ->
  (forall k f', nth_error fs' k = Some f' -> fw_src f' < 2 -> fw_over f' = false) ->
  rlinv (Relay os' fs' todo' (rl_pubs s)) (tr ++ [(o, x)]) P.
Proof.
  intros I Eo Es C L Ids Lt Td Al Cl Sq Np Lv.
  assert (Op : openings (tr ++ [(o, x)]) = openings tr) by (rewrite openings_snoc, Eo, app_nil_r; auto).
  assert (Lf : length fs' = length (rl_fwds s)) by (apply (f_equal (@length _)) in Ids; rewrite !map_length in Ids; auto).
  split; cbn [rl_origins rl_fwds rl_todo rl_pubs]; rewrite ?Op, ?L, ?Lt; try apply I.
  - rewrite events_snoc. eapply core_ext; [| |exact C]; [intros a; exact (proj1 (justified_same tr (o, x) a Eo))|]. intros i. unfold free_of. rewrite Op. auto.
  - intros n l' H. destruct (Td _ _ H) as (l & d & Hl & -> & Nd). destruct (r_todo _ _ _ I _ _ Hl) as (e & dn & He & Ha & Hd).
    exists e, (dn ++ d). rewrite Ha, app_assoc. split; auto. split; auto. intros src pre dst prefix Hi.
    apply in_app_iff in Hi as [Hi|Hi]; [|destruct (Nd _ _ _ _ Hi)]. destruct (Hd _ _ _ _ Hi) as (k & f & Hf & X).
    destruct (map_nth_inv ids _ fs' k f (eq_sym Ids) Hf) as (f' & Hf' & E). exists k, f'. unfold ids in E. injection E as -> _ -> _ ->. auto.
  - intros i Pi. assert (Pi' : pending (rl_todo s) i).
    { destruct Pi as [Pi|(n & l' & a & Hl & Ha & R)]; [left; auto|]. destruct (Td _ _ Hl) as (l & d & Hl' & -> & _).
      right. exists n, (d ++ l'), a. rewrite in_app_iff. auto. }
    destruct (r_alive _ _ _ I i Pi') as (a & Ha & G). eapply Al; eauto.
  - exact Cl.
  - intros k f' H. unfold history. rewrite events_snoc, passed_snoc. eauto.
  - intros k Hk. rewrite passed_snoc, (r_nopass _ _ _ I), Np by lia. auto.
  - intros k src pre c dst H. apply started_snoc in H; auto. destruct (r_started _ _ _ I _ _ _ _ _ H) as (Hp & f & Hf & X). split; auto.
    destruct (map_nth_inv ids _ fs' k f (eq_sym Ids) Hf) as (f' & Hf' & E). exists f'. unfold ids in E. injection E as -> -> -> _ _. auto.
  - exact Lv.
Qed.

Lemma at_all_spec o l : forall i, exists l' ev, at_all i o l = (l', ev) /\ length l' = length l /\
  (forall j a, nth_error l j = Some a -> nth_error l' j = Some (fst (ostep a o))) /\
  (forall e, In e ev -> fst (snd e) = o).
Proof.
  induction l as [|s l IH]; intros i; cbn [at_all].
  - exists [], []. split; auto. split; auto. split; [intros [|j]; discriminate|intros e []].
  - destruct (IH (S i)) as (l' & ev & E & L & N & H). destruct (ostep s o) as [s' x] eqn:B. rewrite E.
    exists (s' :: l'), ((i, (o, x)) :: ev). split; auto. split; [cbn; auto|]. split.
    + intros [|j] a; cbn; [intros [= <-]; rewrite B; auto|apply N].
    + intros e [<-|K]; auto.
Qed.
Lemma got_app c a b : got c (a ++ b) = got c a ++ got c b.
Proof. apply flat_map_app. Qed.
Lemma got_quiet c i ev : (forall e, In e ev -> forall d, fst (snd e) <> OPop d) -> got c (hist i ev) = [].
Proof.
  induction ev as [|[j [o x]] ev IH]; intros H; auto.
  change (hist i ((j, (o, x)) :: ev)) with ((if Nat.eqb j i then [(o, x)] else []) ++ hist i ev).
  rewrite got_app, IH by (intros; apply H; right; auto). rewrite app_nil_r. destruct (Nat.eqb j i); auto.
  specialize (H _ (or_introl eq_refl)). cbn in H. cbn. destruct o; auto. destruct (H c0); auto.
Qed.
Lemma hist_got c i a ev : (forall e, In e ev -> forall d, fst (snd e) <> OPop d) -> got c (hist i (a ++ ev)) = got c (hist i a).
Proof. intros H. rewrite hist_app, got_app, (got_quiet c i ev), app_nil_r; auto. Qed.
Lemma end_fields o a : (o = ONew \/ exists b, o = OEnd b) -> os_prods (fst (ostep a o)) = os_prods a.
Proof. intros [->|[b ->]]; cbn; auto. destruct (nth_error _ _); auto. Qed.
Lemma end_closed o a b : (o = ONew \/ exists b, o = OEnd b) -> os_closed a = os_closed b -> os_closed (fst (ostep a o)) = os_closed (fst (ostep b o)).
Proof. intros [->|[d ->]] E; cbn; rewrite E; auto. destruct (nth_error _ _); auto. Qed.

Lemma seq_keep s tr P x o k f : rlinv s tr P -> nth_error (rl_fwds s) k = Some f ->
  got (fw_cons f) (hist (fw_src f) (events tr ++ ro_did x)) = got (fw_cons f) (hist (fw_src f) (events tr)) -> passed_of k (o, x) = [] ->
  exists l, got (fw_cons f) (hist (fw_src f) (events tr ++ ro_did x)) = l ++ hlist (fw_hold f) /\ passed k tr ++ passed_of k (o, x) = RelaySpec.below (fw_prefix f) l.
Proof. intros I H G Ep. rewrite Ep, G, app_nil_r. exact (r_seq _ _ _ I _ _ H). Qed.

Lemma todo_refl (todo : list (list action)) n l' : nth_error todo n = Some l' -> exists l d, nth_error todo n = Some l /\ l = d ++ l' /\
     forall src pre dst prefix, ~ In (AForward src pre dst prefix) d.
Proof. intros H. exists l', []. repeat split; auto. Qed.

Lemma rlinv_all s tr P o op : rlinv s tr P -> (o = RlNew \/ exists b, o = RlEnd b) -> (op = ONew \/ exists b, op = OEnd b) ->
  forall os ev, at_all 0 op (rl_origins s) = (os, ev) -> rlinv (Relay os (rl_fwds s) (rl_todo s) (rl_pubs s)) (tr ++ [(o, did ev)]) P.
Proof.
  intros I Ho Hop os ev E. destruct (at_all_spec op (rl_origins s) 0) as (os' & ev' & E' & L & N & Q). rewrite E in E'. injection E' as <- <-.
  assert (Q' : forall e, In e ev -> forall d, fst (snd e) <> OPop d).
  { intros e H d. rewrite (Q _ H). destruct Hop as [->|[b ->]]; discriminate. }
  assert (N' : forall i a', nth_error os i = Some a' -> exists a, nth_error (rl_origins s) i = Some a /\ a' = fst (ostep a op)).
  { intros i a' H. destruct (nth_error (rl_origins s) i) as [a|] eqn:Ha; [exists a; split; auto; apply N in Ha; congruence|].
    apply nth_error_None in Ha. apply nth_error_len in H. lia. }
  apply rlinv_next with (s := s); auto.
  - apply (core_all (justified tr) (free_of tr) P op Hop (rl_fwds s) (rl_origins s) [] (events tr) os ev (r_core _ _ _ I) E).
  - apply todo_refl.
  - intros i a Ha G _. exists (fst (ostep a op)). split; [apply N; auto|]. rewrite end_fields; auto.
  - intros i j a' b' Ha Hb. apply N' in Ha as (a & Ha & ->). apply N' in Hb as (b & Hb & ->). apply end_closed; auto. eapply r_closed; eauto.
  - intros k f H. eapply seq_keep; eauto; [apply hist_got; auto|destruct Ho as [->|[b ->]]; auto].
  - intros. destruct Ho as [->|[b ->]]; auto.
  - apply (r_live _ _ _ I).
Qed.

(** Sessions *)
Lemma fresh_spec os : let closed := match os with s :: _ => os_closed s | [] => [] end in
  os_closed (fst (fresh os)) = closed /\ os_prods (fst (fresh os)) = [Some tt].
Proof.
  intros closed. unfold fresh. fold closed.
  assert (H : forall rest s, length (os_closed s) + length rest = length (os_closed s) + length rest ->
    os_closed (fst (orun s (catch_up (length (os_closed s)) rest))) = os_closed s ++ rest /\
    os_prods (fst (orun s (catch_up (length (os_closed s)) rest))) = os_prods s).
  { induction rest as [|c rest IH]; intros s _; [cbn; rewrite app_nil_r; auto|].
    cbn [catch_up]. set (s1 := OSys (os_active s) (os_vec s) (os_cons s) (os_copies s) (os_prods s) (os_tasks s) (os_closed s ++ [c])).
    assert (E : orun s (ONew :: (if c then [OEnd (length (os_closed s))] else []) ++ catch_up (S (length (os_closed s))) rest) =
      let (s2, tr) := orun s1 (catch_up (S (length (os_closed s))) rest) in
      (s2, (ONew, OBroadcast (length (os_closed s))) :: (if c then [(OEnd (length (os_closed s)), OUnit)] else []) ++ tr)).
    { cbn [orun ostep]. destruct c; cbn [app orun ostep os_closed os_active os_vec os_cons os_copies os_prods os_tasks].
      - rewrite nth_error_app2, Nat.sub_diag by lia. cbn [nth_error].
        assert (X : set_nth (length (os_closed s)) true (os_closed s ++ [false]) = os_closed s ++ [true]).
        { generalize (os_closed s). induction l; cbn; auto. f_equal; auto. }
        rewrite X. fold s1. destruct (orun s1 _); auto.
      - fold s1. destruct (orun s1 _); auto. }
    rewrite E. specialize (IH s1 eq_refl). assert (Es : os_closed s1 = os_closed s ++ [c]) by auto. rewrite Es, app_length in IH. cbn [length] in IH. rewrite Nat.add_1_r in IH.
    destruct (orun s1 _) as [s2 tr2]. cbn [fst] in *. destruct IH as [-> ->]. cbn. rewrite <- app_assoc. auto. }
  apply (H closed osys_new eq_refl).
Qed.

Lemma refers_actions t p r i a : In a (actions_of (t, (p, r))) -> refers i a = true -> i < 2 \/ i = p \/ i = r.
Proof.
  destruct t as [t|]; cbn [actions_of].
  - unfold accept_actions. rewrite !in_app_iff. destruct (pl_subscribe t), (pl_publish t), (pl_force t); cbn [In]; intros H R;
      repeat (destruct H as [H|H] || destruct H); subst; cbn [refers] in R; try discriminate;
      apply orb_prop in R as [R|R]; apply Nat.eqb_eq in R; lia.
  - intros [<-|[<-|[]]] R; cbn [refers] in R; apply orb_prop in R as [R|R]; apply Nat.eqb_eq in R; lia.
Qed.

Lemma rlinv_open s tr P o t todo : rlinv s tr P ->
  (forall pr, opening (o, RlOut (Some pr) None []) = [(t, pr)]) -> (forall p r, actions_of (t, (p, r)) = todo p r) ->
  (forall k out, passed_of k (o, out) = []) ->
  forall s' x, open_session todo s = (s', x) -> rlinv s' (tr ++ [(o, x)]) P.
Proof.
  intros I Ho Ha Hp s' x E. unfold open_session in E. destruct (fresh (rl_origins s)) as [n ev] eqn:F. injection E as <- <-.
  set (len := length (rl_origins s)). set (ev2 := map (fun e => (len, e)) ev ++ map (fun e => (S len, e)) ev).
  assert (Op : openings (tr ++ [(o, RlOut (Some (len, S len)) None ev2)]) = openings tr ++ [(t, (len, S len))]).
  { rewrite openings_snoc. f_equal. apply (Ho (len, S len)). }
  pose proof (fresh_spec (rl_origins s)) as Fs. rewrite F in Fs. cbn [fst] in Fs. destruct Fs as [Fc Fp].
  assert (Ln : length (rl_origins s) = len) by auto. pose proof (r_len _ _ _ I) as Rl. rewrite Ln in Rl.
  assert (Nth : forall i u, nth_error (rl_origins s ++ [n; n]) i = Some u -> nth_error (rl_origins s) i = Some u \/ ((i = len \/ i = S len) /\ u = n)).
  { intros i u H. destruct (Nat.lt_ge_cases i len) as [Hi|Hi]; [rewrite nth_error_app1 in H by auto; auto|].
    rewrite nth_error_app2 in H by auto. right. fold len in H. destruct (i - len) as [|[|m]] eqn:E; cbn in H; [| |destruct m; discriminate]; injection H as ->; split; auto; lia. }
  assert (Nq : forall e, In e ev2 -> forall d, fst (snd e) <> OPop d).
  { assert (Z : forall e, In e ev -> forall d, fst e <> OPop d).
    { unfold fresh in F. apply orun_ops in F. intros e H d Q. apply (in_map fst) in H. rewrite F, Q in H. clear -H. revert H.
      generalize (match rl_origins s with [] => [] | a :: _ => os_closed a end) as l. intros l. generalize 0. induction l as [|c l IH]; intros i; cbn; [auto|].
      intros [H|H]; [discriminate|]. apply in_app_iff in H as [H|H]; [|eauto]. destruct c; cbn in H; [destruct H as [H|[]]; discriminate|destruct H]. }
    intros e H. unfold ev2 in H. apply in_app_iff in H as [H|H]; apply in_map_iff in H as (z & <- & H); cbn; apply Z; auto. }
  split; cbn [rl_origins rl_fwds rl_todo rl_pubs]; rewrite ?Op.
  - rewrite events_snoc. cbn [snd ro_did]. refine (core_open _ _ _ _ _ _ _ _ _ _ (r_core _ _ _ I) F _ _).
    + intros a (e & H1 & H2). exists e. rewrite Op, in_app_iff. auto.
    + intros i Hi [H1 H2]. split; auto. rewrite Op, map_app, in_app_iff. cbn. intros [H|[H|[]]]; [auto|]. lia.
  - intros j e. rewrite nth_error_snoc. destruct (Nat.eqb_spec j (length (openings tr))) as [->|Ne]; [|apply (r_open _ _ _ I)].
    intros [= <-]. cbn [snd]. f_equal; lia.
  - rewrite !app_length. cbn [length]. lia.
  - rewrite map_app, <- (r_pubs _ _ _ I). auto.
  - rewrite !app_length, (r_lent _ _ _ I). auto.
  - intros m l. rewrite nth_error_snoc. destruct (Nat.eqb_spec m (length (rl_todo s))) as [->|Ne].
    + intros [= <-]. exists (t, (len, S len)), []. rewrite (r_lent _ _ _ I), nth_error_snoc, Nat.eqb_refl. split; [auto|]. split; [apply Ha|]. intros ? ? ? ? [].
    + intros H. destruct (r_todo _ _ _ I _ _ H) as (e & dn & He & X). exists e, dn. split; auto. rewrite nth_error_snoc.
      rewrite <- (r_lent _ _ _ I). destruct (Nat.eqb_spec m (length (rl_todo s))); [congruence|auto].
  - intros i Pi. assert (D : pending (rl_todo s) i \/ i = len \/ i = S len).
    { destruct Pi as [Pi|(m & l & a & Hl & Hi & R)]; [left; left; auto|]. rewrite nth_error_snoc in Hl.
      destruct (Nat.eqb_spec m (length (rl_todo s))); [|left; right; exists m, l, a; auto].
      injection Hl as <-. rewrite <- Ha in Hi. apply (refers_actions _ _ _ _ _ Hi) in R as [R|R]; [left; left; auto|auto]. }
    destruct D as [D|D].
    + destruct (r_alive _ _ _ I _ D) as (a & Na & G). exists a. split; auto. rewrite nth_error_app1; auto. eapply nth_error_len; eauto.
    + exists n. rewrite nth_error_app2 by (unfold len in *; lia). split; [|rewrite Fp; auto]. fold len. destruct D as [->| ->];
        [rewrite Nat.sub_diag; auto|replace (S len - len) with 1 by lia; auto].
  - assert (Zero : forall i a, nth_error (rl_origins s) i = Some a -> os_closed a = os_closed n).
    { intros i a H. rewrite Fc. pose proof (nth_error_len _ _ _ H). destruct (rl_origins s) as [|z os] eqn:Eo; [cbn in *; lia|].
      apply (r_closed _ _ _ I i 0); rewrite ?Eo; auto. }
    intros i j a b Hi Hj. apply Nth in Hi as [Hi|[_ ->]], Hj as [Hj|[_ ->]]; auto.
    + eapply r_closed; eauto.
    + eauto.
    + symmetry. eauto.
  - intros k f H. unfold history. rewrite events_snoc, passed_snoc, Hp, app_nil_r. cbn [snd ro_did]. rewrite hist_got by auto. eapply r_seq; eauto.
  - intros k Hk. rewrite passed_snoc, Hp, (r_nopass _ _ _ I) by auto. auto.
  - intros k src pre c dst H. apply started_snoc in H; auto. eapply r_started; eauto.
  - apply (r_live _ _ _ I).
Qed.

Lemma core_evs just free P os evs evs' fs : evs = evs' -> core just free P os evs fs -> core just free P os evs' fs.
Proof. intros ->. auto. Qed.
Lemma rlinv_quiet s tr P o x : rlinv s tr P -> opening (o, x) = [] -> ro_started x = None -> ro_did x = [] ->
  (forall k, passed_of k (o, x) = []) -> rlinv s (tr ++ [(o, x)]) P.
Proof.
  intros I E1 E2 E3 E4. replace s with (Relay (rl_origins s) (rl_fwds s) (rl_todo s) (rl_pubs s)) by (destruct s; auto).
  apply rlinv_next with (s := s); auto; rewrite ?E3.
  - eapply core_evs; [|exact (r_core _ _ _ I)]. rewrite app_nil_r. auto.
  - apply todo_refl.
  - intros i a Ha G _. eauto.
  - apply (r_closed _ _ _ I).
  - intros k f H. rewrite E4, !app_nil_r. exact (r_seq _ _ _ I _ _ H).
  - apply (r_live _ _ _ I).
Qed.
Lemma got_one c i j evs e : got c (hist i (evs ++ [(j, e)])) = got c (hist i evs) ++ (if Nat.eqb j i then got_of c e else []).
Proof. rewrite hist_app, hist_one, got_app. destruct (Nat.eqb j i); cbn; rewrite ?app_nil_r; auto. Qed.
Lemma nth_set_cases {A} i j (x : A) l y : nth_error (set_nth i x l) j = Some y -> (i = j /\ x = y) \/ (i <> j /\ nth_error l j = Some y).
Proof.
  destruct (Nat.eq_dec i j) as [->|N]; [|rewrite nth_error_set_ne by auto; auto].
  intros H. pose proof (nth_error_len _ _ _ H) as L. rewrite set_nth_length in L. rewrite nth_error_set_eq in H by auto. injection H as ->. auto.
Qed.

(** A single operation on one origin, by nobody or by a task. *)
Lemma closed_one s tr P i a o a' x : rlinv s tr P -> nth_error (rl_origins s) i = Some a -> ostep a o = (a', x) -> o <> ONew -> (forall b, o <> OEnd b) ->
  forall j k u v, nth_error (set_nth i a' (rl_origins s)) j = Some u -> nth_error (set_nth i a' (rl_origins s)) k = Some v -> os_closed u = os_closed v.
Proof.
  intros I N B N1 N2 j k u v Hu Hv. pose proof (same_closed _ _ _ _ B N1 N2) as E.
  apply nth_set_cases in Hu as [[<- <-]|[_ Hu]], Hv as [[<- <-]|[_ Hv]]; auto; rewrite ?E; eapply r_closed; eauto.
Qed.
Lemma alive_one (os : list osys) i a o a' x : nth_error os i = Some a -> ostep a o = (a', x) ->
  forall j u, nth_error os j = Some u -> get (os_prods u) 0 = Some tt -> (i = j -> touches_prod 0 o = false) ->
  exists u', nth_error (set_nth i a' os) j = Some u' /\ get (os_prods u') 0 = Some tt.
Proof.
  intros N B j u Hu G T. destruct (Nat.eq_dec i j) as [->|Ne].
  - exists a'. rewrite nth_error_set_eq by (eapply nth_error_len; eauto). split; auto. rewrite N in Hu. injection Hu as ->. eapply keep_prod; eauto.
  - exists u. rewrite nth_error_set_ne by auto. auto.
Qed.

Lemma existsb_false {A} (f : A -> bool) l x : existsb f l = false -> In x l -> f x = false.
Proof. intros H K. destruct (f x) eqn:E; auto. rewrite <- H. symmetry. apply existsb_exists. eauto. Qed.

Lemma may_cons s i o f : may s i o = true -> In f (rl_fwds s) -> i = fw_src f -> touches_cons (fw_cons f) o = false.
Proof.
  intros M H ->. destruct o; auto; cbn [may touches_cons] in *; apply negb_true_iff in M; apply (existsb_false _ _ _ M) in H;
    unfold owns_cons in H; rewrite Nat.eqb_refl in H; cbn in H; rewrite Nat.eqb_sym; auto.
Qed.
Lemma may_prod s i o f : may s i o = true -> In f (rl_fwds s) -> i = fw_dst f -> touches_prod (fw_prod f) o = false.
Proof.
  intros M H ->. destruct o; auto; cbn [may touches_prod] in *. apply andb_prop in M as [M _]. apply negb_true_iff in M. apply (existsb_false _ _ _ M) in H;
    unfold owns_prod in H; rewrite Nat.eqb_refl in H; cbn in H; rewrite Nat.eqb_sym; auto.
Qed.
Lemma may_zero s i o : may s i o = true -> pending (rl_todo s) i -> touches_prod 0 o = false.
Proof.
  intros M Pi. destruct o; auto; cbn [may touches_prod] in *. apply andb_prop in M as [_ M]. apply negb_true_iff in M.
  destruct (Nat.eqb p 0); auto. rewrite andb_true_l in M. apply orb_false_iff in M as [M1 M2].
  destruct Pi as [Pi|(n & l & a & Hl & Ha & R)]; [apply Nat.ltb_ge in M1; lia|].
  apply nth_error_In in Hl. apply (existsb_false _ _ _ M2) in Hl. apply (existsb_false _ _ _ Hl) in Ha. congruence.
Qed.
Lemma may_new s i o : may s i o = true -> o <> ONew /\ forall b, o <> OEnd b.
Proof. destruct o; cbn; try discriminate; split; intros; discriminate. Qed.
Lemma touches_got c o x : touches_cons c o = false -> got_of c (o, x) = [].
Proof. unfold got_of. destruct o; auto. cbn. intros ->. destruct x; auto. Qed.

Lemma rlinv_origin s tr P i o s' x : rlinv s tr P -> rlstep s (RlOrigin i o) = (s', x) -> rlinv s' (tr ++ [(RlOrigin i o, x)]) P.
Proof.
  intros I B. cbn [rlstep] in B. destruct (may s i o) eqn:M; [|injection B as <- <-; apply rlinv_quiet; auto].
  unfold at_origin in B. destruct (nth_error (rl_origins s) i) as [a|] eqn:N.
  2:{ injection B as <- <-. replace (Relay _ _ _ _) with s by (destruct s; auto). apply rlinv_quiet; auto. }
  destruct (ostep a o) as [a' y] eqn:E. injection B as <- <-. destruct (may_new _ _ _ M) as [N1 N2].
  apply rlinv_next with (s := s); auto; cbn [did ro_did].
  - eapply core_other; eauto; [exact (r_core _ _ _ I)| |].
    + intros k f H. apply nth_error_In in H. split; intros; [eapply may_cons|eapply may_prod]; eauto.
    + intros z b Hz. left. destruct o; cbn in Hz; destruct y; try destruct Hz. cbn [may] in M. apply andb_prop in M as [M M2]. apply andb_prop in M as [_ M1].
      apply negb_true_iff in M1, M2. apply Nat.ltb_ge in M1. split; auto. rewrite <- (r_pubs _ _ _ I). intros K.
      apply (existsb_false _ _ _ M2) in K. rewrite Nat.eqb_refl in K. discriminate.
  - apply set_nth_length.
  - apply todo_refl.
  - intros j u Hu G Pj. eapply alive_one; eauto. intros ->. eapply may_zero; eauto.
  - eapply closed_one; eauto.
  - intros k f H. eapply (seq_keep s tr P (did [(i, (o, y))])); eauto. cbn [did ro_did]. rewrite got_one.
    destruct (Nat.eqb_spec i (fw_src f)); [|apply app_nil_r]. rewrite touches_got; [apply app_nil_r|].
    eapply may_cons; eauto. eapply nth_error_In; eauto.
  - apply (r_live _ _ _ I).
Qed.

Lemma core_P just free (P Q : nat -> bytes) os evs fs : (forall k, k < length fs -> P k = Q k) -> core just free P os evs fs -> core just free Q os evs fs.
Proof.
  intros E C. split; try apply C; intros k f H; rewrite <- E by (eapply nth_error_len; eauto); [eapply c_just|eapply c_ok]; eauto.
Qed.

Lemma set_nth_nil {A} n (x : A) l y : nth_error l n = Some y -> length (set_nth n x l) = length l.
Proof. intros _. apply set_nth_length. Qed.

Lemma pending_less todo n l a i : nth_error todo n = Some (a :: l) -> pending (set_nth n l todo) i -> pending todo i.
Proof.
  intros H [Pi|(m & l' & b & Hl & Hb & R)]; [left; auto|right]. apply nth_set_cases in Hl as [[<- <-]|[_ Hl]].
  - exists n, (a :: l), b. split; auto. split; [right; auto|auto].
  - exists m, l', b. auto.
Qed.

Lemma rlinv_setup s tr P n ks s' x : rlinv s tr P -> rlstep s (RlSetup n ks) = (s', x) -> exists P', rlinv s' (tr ++ [(RlSetup n ks, x)]) P'.
Proof.
  intros I B. cbn [rlstep] in B. destruct (nth_error (rl_todo s) n) as [[|[src pre dst prefix|path] rest]|] eqn:T.
  1,4: exists P; injection B as <- <-; apply rlinv_quiet; auto.
  - (* a task *)
    destruct (nth_error (rl_origins s) src) as [a|] eqn:Na; [|exists P; injection B as <- <-; apply rlinv_quiet; auto].
    destruct (nth_error (rl_origins s) dst) as [b|] eqn:Nb; [|exists P; injection B as <- <-; apply rlinv_quiet; auto].
    destruct (get (os_prods a) 0) as [[]|] eqn:Ga.
    2:{ destruct (at_origin src _ _), (at_origin dst _ _). exists P; injection B as <- <-; apply rlinv_quiet; auto. }
    destruct (get (os_prods b) 0) as [[]|] eqn:Gb.
    2:{ destruct (at_origin src _ _), (at_origin dst _ _). exists P; injection B as <- <-; apply rlinv_quiet; auto. }
    unfold at_origin in B at 1. rewrite Na in B. destruct (ostep a (OConsume 0 pre ks)) as [a1 y1] eqn:B1.
    assert (Y1 : y1 = OConsumer (length (os_cons a)) /\ os_prods a1 = os_prods a).
    { cbn in B1. rewrite Ga in B1. injection B1 as <- <-. auto. }
    destruct Y1 as [-> Ep1].
    destruct (nth_error (set_nth src a1 (rl_origins s)) dst) as [b1|] eqn:Nb1.
    2:{ apply nth_error_None in Nb1. rewrite set_nth_length in Nb1. apply nth_error_len in Nb. lia. }
    assert (Epb : os_prods b1 = os_prods b).
    { apply nth_set_cases in Nb1 as [[<- <-]|[_ Nb1]]; congruence. }
    unfold at_origin in B. rewrite Nb1 in B. destruct (ostep b1 (OClone 0)) as [b2 y2] eqn:B2.
    assert (Y2 : y2 = OUnit). { cbn in B2. rewrite Epb, Gb in B2. injection B2 as <- <-. auto. }
    subst y2. injection B as <- <-.
    set (x := RlOut None (Some (length (rl_fwds s))) _).
    set (P' := fun k => if Nat.eqb k (length (rl_fwds s)) then pre else P k).
    assert (P1 : P' (length (rl_fwds s)) = pre) by (unfold P'; rewrite Nat.eqb_refl; auto).
    assert (P2 : forall k, k < length (rl_fwds s) -> P' k = P k).
    { intros k Hk. unfold P'. destruct (Nat.eqb_spec k (length (rl_fwds s))); [lia|auto]. }
    assert (Op : openings (tr ++ [(RlSetup n ks, x)]) = openings tr) by (rewrite openings_snoc; apply app_nil_r).
    destruct (r_todo _ _ _ I _ _ T) as (e & dn & He & Ha & Hd).
    assert (J : justified tr (AForward src pre dst prefix)).
    { exists e. split; [eapply nth_error_In; eauto|]. rewrite Ha. apply in_app_iff. right. left. auto. }
    rewrite <- Epb. exists P'. split; cbn [rl_origins rl_fwds rl_todo rl_pubs]; rewrite ?Op, ?set_nth_length; try apply I.
    + rewrite events_snoc. cbn [snd x ro_did app]. eapply core_ext with (just := justified tr) (free := free_of tr).
      * intros z (e' & H1 & H2). exists e'. rewrite Op. auto.
      * intros i. unfold free_of. rewrite Op. auto.
      * eapply core_evs; [|eapply core_spawn; [exact (r_core _ _ _ I)|exact Na|exact B1|exact Nb1|exact B2|exact J|exact P1|exact P2]].
        rewrite <- app_assoc. auto.
    + intros m l H. apply nth_set_cases in H as [[<- <-]|[Ne H]].
      * exists e, (dn ++ [AForward src pre dst prefix]). rewrite <- app_assoc. split; auto. split; auto.
        intros src' pre' dst' prefix' Hi. apply in_app_iff in Hi as [Hi|[Hi|[]]].
        -- destruct (Hd _ _ _ _ Hi) as (k & f & Hf & X). exists k, f. rewrite nth_error_app1, P2 by (eapply nth_error_len; eauto). auto.
        -- injection Hi as <- <- <- <-. exists (length (rl_fwds s)). eexists. rewrite nth_error_app2, Nat.sub_diag by lia. cbn [nth_error]. split; [reflexivity|]. auto.
      * destruct (r_todo _ _ _ I _ _ H) as (e' & dn' & He' & Ha' & Hd'). exists e', dn'. split; auto. split; auto.
        intros src' pre' dst' prefix' Hi. destruct (Hd' _ _ _ _ Hi) as (k & f & Hf & X). exists k, f. rewrite nth_error_app1, P2 by (eapply nth_error_len; eauto). auto.
    + intros i Pi. destruct (r_alive _ _ _ I i (pending_less _ _ _ _ _ T Pi)) as (u & Hu & G).
      destruct (alive_one _ _ _ _ _ _ Na B1 _ _ Hu G) as (u1 & Hu1 & G1); auto.
      exact (alive_one _ _ _ _ _ _ Nb1 B2 _ _ Hu1 G1 (fun _ => eq_refl)).
    + intros i j u v Hu Hv.
      assert (Cl1 : forall j k u v, nth_error (set_nth src a1 (rl_origins s)) j = Some u -> nth_error (set_nth src a1 (rl_origins s)) k = Some v -> os_closed u = os_closed v).
      { eapply closed_one; eauto; discriminate. }
      pose proof (same_closed _ _ _ _ B2 ltac:(discriminate) ltac:(discriminate)) as Ec.
      apply nth_set_cases in Hu as [[<- <-]|[_ Hu]], Hv as [[<- <-]|[_ Hv]]; auto; rewrite ?Ec; eapply Cl1; eauto.
    + intros k f H. unfold history. rewrite events_snoc, passed_snoc. cbn [passed_of]. rewrite app_nil_r.
      rewrite nth_error_snoc in H. destruct (Nat.eqb_spec k (length (rl_fwds s))) as [->|Ne].
      * injection H as <-. cbn. exists []. rewrite (r_nopass _ _ _ I) by lia. split; auto. rewrite hist_got.
        -- pose proof (c_hist _ _ _ _ _ _ (r_core _ _ _ I) _ _ Na) as R. eapply got_bound; eauto.
        -- intros z [<-|[<-|[]]]; cbn; discriminate.
      * rewrite hist_got by (intros z [<-|[<-|[]]]; cbn; discriminate). exact (r_seq _ _ _ I _ _ H).
    + intros k. rewrite app_length. cbn. intros Hk. rewrite passed_snoc, (r_nopass _ _ _ I) by lia. auto.
    + intros k src' pre' c' dst' (n' & ks' & H). apply in_app_iff in H as [H|[H|[]]].
      * destruct (r_started _ _ _ I k src' pre' c' dst') as (Hp & f & Hf & X); [exists n', ks'; auto|].
        pose proof (nth_error_len _ _ _ Hf). rewrite P2 by auto. split; auto. exists f. rewrite nth_error_app1; auto.
      * unfold x in H. injection H as E1 E2 E3 E4 E5 E6 E7 E8. subst src' pre' c' dst'. rewrite <- E3. split; auto.
        eexists. rewrite nth_error_app2, Nat.sub_diag by lia. cbn [nth_error]. split; [reflexivity|]. auto.
    + intros k f. rewrite nth_error_snoc. destruct (Nat.eqb_spec k (length (rl_fwds s))); [intros [= <-]; auto|apply (r_live _ _ _ I)].
  - (* a forced broadcast *)
    exists P. destruct (at_all_spec ONew (rl_origins s) 0) as (os1 & ev1 & E1 & L1 & N1 & Q1). rewrite E1 in B.
    destruct (rl_origins s) as [|a0 rest0] eqn:Eo; [pose proof (r_len _ _ _ I) as R; rewrite Eo in R; discriminate|].
    pose proof (N1 0 a0 eq_refl) as Z1. unfold at_origin in B. rewrite Z1 in B.
    destruct (ostep (fst (ostep a0 ONew)) (OPublish 0 path (length (os_closed a0)))) as [a2 y2] eqn:B2. injection B as <- <-.
    match goal with |- rlinv (Relay ?z _ _ _) _ _ => change z with (set_nth 0 a2 os1) end.
    assert (Q : forall e, In e (ev1 ++ [(0, (OPublish 0 path (length (os_closed a0)), y2))]) -> forall d, fst (snd e) <> OPop d).
    { intros z H d. apply in_app_iff in H as [H|[<-|[]]]; [rewrite (Q1 _ H)|]; discriminate. }
    assert (N1' : forall i u, nth_error os1 i = Some u -> exists v, nth_error (rl_origins s) i = Some v /\ u = fst (ostep v ONew)).
    { intros i u H. rewrite Eo. destruct (nth_error (a0 :: rest0) i) as [v|] eqn:Hv; [exists v; split; auto; apply N1 in Hv; congruence|].
      apply nth_error_None in Hv. apply nth_error_len in H. lia. }
    assert (Cl1 : forall i j u v, nth_error os1 i = Some u -> nth_error os1 j = Some v -> os_closed u = os_closed v).
    { intros i j u v Hu Hv. apply N1' in Hu as (u' & Hu & ->). apply N1' in Hv as (v' & Hv & ->). apply end_closed; auto. eapply r_closed; eauto. }
    apply rlinv_next with (s := s); auto; cbn [did ro_did].
    + rewrite app_assoc. eapply core_other.
      * apply (core_all (justified tr) (free_of tr) P ONew (or_introl eq_refl) (rl_fwds s) (rl_origins s) [] (events tr) os1 ev1 (r_core _ _ _ I)).
        rewrite Eo. exact E1.
      * exact Z1.
      * exact B2.
      * auto.
      * intros y b Hy. right. right. split; auto. cbn in Hy. destruct y2; try destruct Hy.
        destruct (str_eqb_spec path y); [subst y|destruct Hy]. destruct (r_todo _ _ _ I _ _ T) as (e & dn & He & Ha & Hd).
        exists e. split; [eapply nth_error_In; eauto|]. rewrite Ha. apply in_app_iff. right. left. auto.
    + rewrite set_nth_length, Eo. auto.
    + apply set_nth_length.
    + intros m l H. apply nth_set_cases in H as [[<- <-]|[Ne H]].
      * exists (AForce path :: rest), [AForce path]. split; auto. split; auto. intros ? ? ? ? [H|[]]. discriminate.
      * exists l, []. auto.
    + intros i u Hu G _. assert (Hu1 : nth_error os1 i = Some (fst (ostep u ONew))) by (apply N1; rewrite <- Eo; auto).
      apply (alive_one _ _ _ _ _ _ Z1 B2 _ _ Hu1); auto.
    + pose proof (same_closed _ _ _ _ B2 ltac:(discriminate) ltac:(discriminate)) as Ec.
      intros i j u v Hu Hv. apply nth_set_cases in Hu as [[<- <-]|[_ Hu]], Hv as [[<- <-]|[_ Hv]]; auto; rewrite ?Ec; eapply Cl1; eauto.
    + intros k f H. eapply (seq_keep s tr P (did (ev1 ++ [(0, (OPublish 0 path (length (os_closed a0)), y2))]))); eauto. cbn [did ro_did]. apply hist_got. auto.
    + apply (r_live _ _ _ I).
Qed.

Lemma nodup_map_ne {A B} (g : A -> B) l j k x y : NoDup (map g l) -> nth_error l j = Some x -> nth_error l k = Some y -> j <> k -> g x <> g y.
Proof.
  intros N Hx Hy Ne E. apply Ne. apply (proj1 (NoDup_nth_error (map g l)) N j k).
  - rewrite map_length. eapply nth_error_len; eauto.
  - rewrite !nth_error_map, Hx, Hy. cbn. congruence.
Qed.
Lemma core_drop just free P os evs fs k f f' suf b :
  core just free P os evs fs -> nth_error fs k = Some f -> fw_hold f = Some (suf, b) -> tell (fw_dst f) (fw_prefix f ++ suf) b evs ->
  ids f' = ids f -> fw_over f' = fw_over f -> fw_wait f' = fw_wait f -> fw_hold f' = None ->
  core just free P os evs (set_nth k f' fs).
Proof.
  intros C Hf Hh Tl I Ov Wt Hh'.
  assert (I1 : fw_src f' = fw_src f) by (unfold ids in I; congruence).
  assert (I2 : fw_cons f' = fw_cons f) by (unfold ids in I; congruence).
  assert (I3 : fw_dst f' = fw_dst f) by (unfold ids in I; congruence).
  assert (I4 : fw_prod f' = fw_prod f) by (unfold ids in I; congruence).
  assert (I5 : fw_prefix f' = fw_prefix f) by (unfold ids in I; congruence).
  split; try apply C.
  - intros j g H. apply nth_set_cases in H as [[<- <-]|[_ H]]; [rewrite I1, I3, I5|]; eapply c_just; eauto.
  - intros j g H. apply nth_set_cases in H as [[<- <-]|[_ H]]; [|eapply c_ok; eauto]. intros Ov'. rewrite Ov in Ov'.
    destruct (c_ok _ _ _ _ _ _ C _ _ Hf Ov') as (a & d & kk & Na & Nd & G & Gp & Pk & Rk & Sa & Co).
    exists a, d, kk. rewrite I1, I2, I3, I4, I5, Wt, Hh'. rewrite Hh in Sa, Co. cbn [hlist app] in *. repeat (split; [solve [auto]|]). split.
    + intros s' b' H. apply Sa. right. auto.
    + intros s' b' H. apply Co in H as [H|[H|H]]; auto. injection H as <- <-. auto.
  - rewrite (map_set_nth cid k f' fs f Hf) by (unfold cid; congruence). apply C.
  - rewrite (map_set_nth pid k f' fs f Hf) by (unfold pid; congruence). apply C.
  - intros j g H. apply nth_set_cases in H as [[<- <-]|[_ H]]; [rewrite I1, I2, I3, I4|]; eapply c_bound; eauto.
  - intros j g H. apply nth_set_cases in H as [[<- <-]|[_ H]]; [auto|eapply c_over; eauto].
Qed.
Lemma core_own just free P os evs fs k f f' a o a' x :
  core just free P os evs fs -> nth_error fs k = Some f -> fw_over f = false -> nth_error os (fw_src f) = Some a -> ostep a o = (a', x) ->
  (o = OPop (fw_cons f) \/ o = ORecv (fw_cons f) \/ o = OCDrop (fw_cons f)) ->
  ids f' = ids f -> (fw_over f' = true -> fw_hold f' = None) ->
  (fw_over f' = false -> exists k', get (os_cons a') (fw_cons f) = Some k' /\ oc_recv k' = fw_wait f' /\
     hlist (fw_hold f') = hlist (fw_hold f) ++ got_of (fw_cons f) (o, x)) ->
  core just free P (set_nth (fw_src f) a' os) (evs ++ [(fw_src f, (o, x))]) (set_nth k f' fs).
Proof.
  intros C Hf Ov N B Ho I Hd K. eapply core_step; eauto.
  - apply set_nth_length.
  - intros j g g' Hg Hg'. apply nth_set_cases in Hg' as [[<- <-]|[Ne Hg']].
    + rewrite Hf in Hg. injection Hg as <-. split; auto. split; auto. intros Ov'. split; auto. split; [auto|]. split; [congruence|].
      intros _. destruct Ho as [->|[->| ->]]; auto.
    + rewrite Hg in Hg'. injection Hg' as <-. eapply moves_same; eauto.
      * intros E. pose proof (nodup_map_ne cid fs k j f g (c_cid _ _ _ _ _ _ C) Hf Hg Ne) as D. unfold cid in D.
        assert (fw_cons f <> fw_cons g) by congruence.
        destruct Ho as [->|[->| ->]]; cbn; destruct (Nat.eqb_spec (fw_cons f) (fw_cons g)); congruence.
      * intros _. destruct Ho as [->|[->| ->]]; auto.
  - intros y b Hy. destruct Ho as [->|[->| ->]]; cbn in Hy; destruct x; destruct Hy.
Qed.

Lemma ids_set (fs : list fwd) k f f' : nth_error fs k = Some f -> ids f' = ids f -> map ids (set_nth k f' fs) = map ids fs.
Proof. intros H E. apply (map_set_nth ids k f' fs f H). auto. Qed.

(** Forwarding what it holds. *)
Lemma rlinv_pass s tr P k f suf b d d' y : rlinv s tr P -> nth_error (rl_fwds s) k = Some f -> fw_over f = false -> fw_hold f = Some (suf, b) ->
  nth_error (rl_origins s) (fw_dst f) = Some d -> ostep d (OPublish (fw_prod f) (fw_prefix f ++ suf) b) = (d', y) ->
  forall f', ids f' = ids f -> fw_over f' = false -> fw_wait f' = fw_wait f -> fw_hold f' = None ->
  rlinv (Relay (set_nth (fw_dst f) d' (rl_origins s)) (set_nth k f' (rl_fwds s)) (rl_todo s) (rl_pubs s))
    (tr ++ [(RlStep k, did [(fw_dst f, (OPublish (fw_prod f) (fw_prefix f ++ suf) b, y))])]) P.
Proof.
  intros I Hf Ov Hh Nd B f' Ei Ov' Wt' Hh'. pose proof (r_core _ _ _ I) as C.
  destruct (c_ok _ _ _ _ _ _ C _ _ Hf Ov) as (a & d0 & kk & Na & Nd' & G & Gp & Pk & Rk & Sa & Co).
  rewrite Nd in Nd'. injection Nd' as <-. rewrite Hh in Sa. cbn [hlist app] in Sa. pose proof (Sa suf b (or_introl eq_refl)) as Ts.
  assert (Y : exists u, y = OUnique u).
  { destruct (core_owf _ _ _ _ _ _ _ _ C Na) as [_ Ya]. pose proof (y_known _ _ Ya _ _ Ts) as Lb.
    rewrite (r_closed _ _ _ I _ _ _ _ Na Nd) in Lb. cbn in B. rewrite Gp in B. destruct (nth_error (os_closed d) b) eqn:E.
    - destruct (announce _ _ _ _ _ _). injection B as <- <-. eauto.
    - apply nth_error_None in E. lia. }
  destruct Y as [u ->].
  apply rlinv_next with (s := s); auto; cbn [did ro_did].
  - apply core_drop with (f := f) (suf := suf) (b := b); auto; try congruence.
    + eapply core_other; eauto. intros x b' Hx. right. left. cbn in Hx. destruct (str_eqb_spec (fw_prefix f ++ suf) x); [|destruct Hx].
      destruct Hx as [<-|[]]. exists (fw_src f), (P k), (fw_prefix f), suf. split; [eapply c_just; eauto|]. auto.
    + apply tell_snoc. right. split; auto. cbn. rewrite str_eqb_refl. left. auto.
  - apply set_nth_length.
  - eapply ids_set; eauto.
  - apply todo_refl.
  - intros j v Hv Gv _. eapply alive_one; eauto.
  - eapply closed_one; eauto; discriminate.
  - assert (Gt : forall c i, got c (hist i (events tr ++ [(fw_dst f, (OPublish (fw_prod f) (fw_prefix f ++ suf) b, OUnique u))])) = got c (hist i (events tr))).
    { intros. apply hist_got. intros z [<-|[]]. cbn. discriminate. }
    intros j g H. rewrite Gt. apply nth_set_cases in H as [[<- <-]|[Ne H]].
    + destruct (r_seq _ _ _ I _ _ Hf) as (l & L1 & L2). rewrite Hh in L1. cbn in L1. unfold ids in Ei. injection Ei as -> -> _ _ ->.
      rewrite Hh'. exists (l ++ [(suf, b)]). cbn [hlist]. rewrite app_nil_r. split; auto. cbn. rewrite Nat.eqb_refl. cbn. rewrite L2.
      unfold below. rewrite map_app. auto.
    + cbn. destruct (Nat.eqb_spec k j); [congruence|]. rewrite app_nil_r. exact (r_seq _ _ _ I _ _ H).
  - intros j Hj. cbn. destruct (Nat.eqb_spec k j); auto. apply nth_error_len in Hf. lia.
  - intros j g H. apply nth_set_cases in H as [[<- <-]|[Ne H]]; auto. apply (r_live _ _ _ I _ _ H).
Qed.

(** Reading. *)
Lemma rlinv_read s tr P k f f' a o a' y : rlinv s tr P -> nth_error (rl_fwds s) k = Some f -> fw_over f = false -> fw_hold f = None ->
  nth_error (rl_origins s) (fw_src f) = Some a -> ostep a o = (a', y) -> (o = OPop (fw_cons f) \/ o = ORecv (fw_cons f)) ->
  ids f' = ids f -> fw_over f' = false ->
  (exists k', get (os_cons a') (fw_cons f) = Some k' /\ oc_recv k' = fw_wait f' /\ hlist (fw_hold f') = got_of (fw_cons f) (o, y)) ->
  rlinv (Relay (set_nth (fw_src f) a' (rl_origins s)) (set_nth k f' (rl_fwds s)) (rl_todo s) (rl_pubs s))
    (tr ++ [(RlStep k, did [(fw_src f, (o, y))])]) P.
Proof.
  intros I Hf Ov Hh Na B Ho Ei Ov' K. pose proof (r_core _ _ _ I) as C.
  apply rlinv_next with (s := s); auto; cbn [did ro_did].
  - eapply core_own; eauto; [tauto|congruence|]. intros _. rewrite Hh. exact K.
  - apply set_nth_length.
  - eapply ids_set; eauto.
  - apply todo_refl.
  - intros j v Hv Gv _. eapply alive_one; eauto. intros _. destruct Ho as [->| ->]; auto.
  - eapply closed_one; eauto; destruct Ho as [->| ->]; discriminate.
  - assert (Ps : forall j, passed_of j (RlStep k, did [(fw_src f, (o, y))]) = []).
    { intros j. cbn. destruct (Nat.eqb k j); auto. destruct Ho as [->| ->]; auto. }
    intros j g H. rewrite Ps, app_nil_r, got_one. apply nth_set_cases in H as [[<- <-]|[Ne H]].
    + destruct (r_seq _ _ _ I _ _ Hf) as (l & L1 & L2). rewrite Hh in L1. cbn in L1. rewrite app_nil_r in L1. unfold ids in Ei. injection Ei as -> -> _ _ ->.
      destruct K as (k' & _ & _ & K). rewrite K, Nat.eqb_refl. exists l. split; auto. f_equal. auto.
    + destruct (r_seq _ _ _ I _ _ H) as (l & L1 & L2). exists l. split; auto. rewrite <- L1.
      destruct (Nat.eqb_spec (fw_src f) (fw_src g)) as [E|E]; [|apply app_nil_r]. rewrite touches_got; [apply app_nil_r|].
      pose proof (nodup_map_ne cid _ k j f g (c_cid _ _ _ _ _ _ C) Hf H Ne) as D. unfold cid in D.
      destruct Ho as [->| ->]; cbn; destruct (Nat.eqb_spec (fw_cons f) (fw_cons g)); congruence.
  - intros j Hj. cbn. destruct (Nat.eqb_spec k j); auto. destruct Ho as [->| ->]; auto.
  - intros j g H. apply nth_set_cases in H as [[<- <-]|[Ne H]]; auto. apply (r_live _ _ _ I _ _ H).
Qed.

Lemma rlinv_task s tr P k s' x : rlinv s tr P -> rlstep s (RlStep k) = (s', x) -> rlinv s' (tr ++ [(RlStep k, x)]) P.
Proof.
  intros I B. cbn [rlstep] in B. pose proof (r_core _ _ _ I) as C.
  destruct (nth_error (rl_fwds s) k) as [[src c dst p prefix wait hold over]|] eqn:Hf; [|injection B as <- <-; apply rlinv_quiet; auto; intros j; cbn; destruct (Nat.eqb k j); auto].
  destruct over; [injection B as <- <-; apply rlinv_quiet; auto; intros j; cbn; destruct (Nat.eqb k j); auto|].
  set (f := Fwd src c dst p prefix wait hold false) in *.
  destruct (c_ok _ _ _ _ _ _ C _ _ Hf eq_refl) as (a & d & kk & Na & Nd & G & Gp & Pk & Rk & Sa & Co). cbn in Na, Nd, G, Gp, Rk.
  destruct hold as [[suf b]|].
  { unfold at_origin in B. rewrite Nd in B. destruct (ostep d (OPublish p (prefix ++ suf) b)) as [d' y] eqn:E. injection B as <- <-.
    apply (rlinv_pass s tr P k f suf b d d' y); auto. }
  destruct wait.
  2:{ unfold at_origin in B. rewrite Na in B. destruct (ostep a (OPop c)) as [a' y] eqn:E.
      destruct kk as [pre u tok rc l]. cbn in Rk. subst rc. pose proof E as E'. cbn in E'. rewrite G in E'.
      destruct u as [|[suf b] u]; injection E' as <- <-; injection B as <- <-;
        [refine (rlinv_read s tr P k f (Fwd src c dst p prefix true None false) a (OPop c) _ _ I Hf eq_refl eq_refl Na E (or_introl eq_refl) eq_refl eq_refl _)
        |refine (rlinv_read s tr P k f (Fwd src c dst p prefix false (Some (suf, b)) false) a (OPop c) _ _ I Hf eq_refl eq_refl Na E (or_introl eq_refl) eq_refl eq_refl _)];
        eexists; (split; [cbn; rewrite (get_set_eq _ _ _ _ G); reflexivity|]); cbn; rewrite ?Nat.eqb_refl; auto. }
  unfold at_origin in B at 1. rewrite Na in B. destruct (ostep a (ORecv c)) as [a' y] eqn:E.
  destruct kk as [pre u tok rc l]. cbn in Rk. subst rc. pose proof E as E'. cbn in E'. rewrite G in E'.
  destruct tok.
  { injection E' as <- <-; injection B as <- <-.
    refine (rlinv_read s tr P k f (Fwd src c dst p prefix false None false) a (ORecv c) _ _ I Hf eq_refl eq_refl Na E (or_intror eq_refl) eq_refl eq_refl _).
    eexists; (split; [cbn; rewrite (get_set_eq _ _ _ _ G); reflexivity|]); cbn; auto. }
  destruct (l && os_alive a) eqn:Al.
  { injection E' as <- <-; injection B as <- <-.
    refine (rlinv_read s tr P k f (Fwd src c dst p prefix true None false) a (ORecv c) _ _ I Hf eq_refl eq_refl Na E (or_intror eq_refl) eq_refl eq_refl _).
    eexists; (split; [cbn; first [exact G|rewrite (get_set_eq _ _ _ _ G); reflexivity]|]); cbn; auto. }
  (* the task ends *)
  injection E' as E1 E2. subst y.
  assert (Src : ~ src < 2).
  { intros H. destruct (r_alive _ _ _ I src (or_introl H)) as (a0 & Ha0 & G0). rewrite Na in Ha0. injection Ha0 as <-.
    pose proof (c_hist _ _ _ _ _ _ C _ _ Na) as R. eapply consume_no_end; [exact R| |rewrite E; reflexivity].
    unfold producing. cbn. rewrite G0. auto. }
  assert (Na' : nth_error (set_nth src a' (rl_origins s)) src = Some a') by (apply nth_error_set_eq; eapply nth_error_len; eauto).
  unfold at_origin in B at 1. rewrite Na' in B. destruct (ostep a' (OCDrop c)) as [a2 y2] eqn:E3.
  set (os2 := set_nth src a2 (set_nth src a' (rl_origins s))) in *.
  destruct (nth_error os2 dst) as [d2|] eqn:Nd2.
  2:{ apply nth_error_None in Nd2. unfold os2 in Nd2. rewrite !set_nth_length in Nd2. apply nth_error_len in Nd. lia. }
  unfold at_origin in B. rewrite Nd2 in B. destruct (ostep d2 (ODrop p)) as [d3 y3] eqn:E4. injection B as <- <-.
  set (f' := Fwd src c dst p prefix false None true).
  assert (C1 : core (justified tr) (free_of tr) P (set_nth src a' (rl_origins s)) (events tr ++ [(src, (ORecv c, ODone))]) (set_nth k (Fwd src c dst p prefix false None false) (rl_fwds s))).
  { refine (core_own _ _ P (rl_origins s) (events tr) (rl_fwds s) k f (Fwd src c dst p prefix false None false) a (ORecv c) a' ODone C Hf eq_refl Na E _ eq_refl _ _); auto.
    intros _. rewrite <- E1. eexists; (split; [cbn; rewrite (get_set_eq _ _ _ _ G); reflexivity|]); cbn; auto. }
  set (f1 := Fwd src c dst p prefix false None false) in *.
  assert (Hf1 : nth_error (set_nth k f1 (rl_fwds s)) k = Some f1) by (apply nth_error_set_eq; eapply nth_error_len; eauto).
  assert (C2 : core (justified tr) (free_of tr) P os2 ((events tr ++ [(src, (ORecv c, ODone))]) ++ [(src, (OCDrop c, y2))]) (set_nth k f' (set_nth k f1 (rl_fwds s)))).
  { refine (core_own _ _ P _ _ _ k f1 f' a' (OCDrop c) a2 y2 C1 Hf1 eq_refl Na' E3 _ eq_refl _ _); auto. cbn. discriminate. }
  assert (Ss : set_nth k f' (set_nth k f1 (rl_fwds s)) = set_nth k f' (rl_fwds s)).
  { clear. generalize (rl_fwds s). intros l. revert k. induction l; intros [|k]; cbn; auto. f_equal. auto. }
  rewrite Ss in C2.
  assert (Ne : forall j g, nth_error (set_nth k f' (rl_fwds s)) j = Some g -> (j = k /\ g = f') \/ (j <> k /\ nth_error (rl_fwds s) j = Some g /\ pid g <> (dst, p) /\ cid g <> (src, c))).
  { intros j g H. apply nth_set_cases in H as [[<- <-]|[N H]]; auto. right. split; auto. split; auto. split.
    - intros Q. exact (nodup_map_ne pid _ k j f g (c_pid _ _ _ _ _ _ C) Hf H N (eq_sym Q)).
    - intros Q. exact (nodup_map_ne cid _ k j f g (c_cid _ _ _ _ _ _ C) Hf H N (eq_sym Q)). }
  assert (C3 : core (justified tr) (free_of tr) P (set_nth dst d3 os2) (((events tr ++ [(src, (ORecv c, ODone))]) ++ [(src, (OCDrop c, y2))]) ++ [(dst, (ODrop p, y3))]) (set_nth k f' (rl_fwds s))).
  { eapply core_step; eauto.
    - intros j g g' Hg Hg'. rewrite Hg in Hg'. injection Hg' as <-. destruct (Ne _ _ Hg) as [[-> ->]|(Nj & H & Np & _)].
      + split; auto. split; auto. cbn. discriminate.
      + eapply moves_same; eauto. intros ->. cbn. destruct (Nat.eqb_spec p (fw_prod g)); auto. subst p. destruct Np. auto.
    - intros z b Hz. cbn in Hz. destruct y3; destruct Hz. }
  assert (Quiet : forall e, In e [(src, (ORecv c, ODone)); (src, (OCDrop c, y2)); (dst, (ODrop p, y3))] -> forall d, fst (snd e) <> OPop d).
  { intros e [<-|[<-|[<-|[]]]]; cbn; discriminate. }
  assert (Ps : forall j, passed_of j (RlStep k, did [(src, (ORecv c, ODone)); (src, (OCDrop c, y2)); (dst, (ODrop p, y3))]) = []).
  { intros j. cbn. destruct (Nat.eqb k j); auto. }
  assert (Cl : os_closed a2 = os_closed a).
  { rewrite (same_closed _ _ _ _ E3), (same_closed _ _ _ _ E); auto; discriminate. }
  assert (Cl3 : os_closed d3 = os_closed d2) by (apply (same_closed _ _ _ _ E4); discriminate).
  apply rlinv_next with (s := s); auto; cbn [did ro_did].
  - eapply core_evs; [|exact C3]. rewrite <- !app_assoc. auto.
  - unfold os2. rewrite !set_nth_length. auto.
  - eapply ids_set; eauto.
  - apply todo_refl.
  - intros j v Hv Gv _. destruct (alive_one _ _ _ _ _ _ Na E _ _ Hv Gv) as (v1 & Hv1 & Gv1); auto.
    destruct (alive_one _ _ _ _ _ _ Na' E3 _ _ Hv1 Gv1) as (v2 & Hv2 & Gv2); auto.
    eapply alive_one; eauto. intros _. destruct (c_bound _ _ _ _ _ _ C _ _ Hf) as (? & ? & _ & _ & _ & _ & Hp). cbn in Hp.
    cbn. destruct (Nat.eqb_spec p 0); [lia|auto].
  - assert (Any : forall i u, nth_error (set_nth dst d3 os2) i = Some u -> os_closed u = os_closed a).
    { assert (Any2 : forall i u, nth_error os2 i = Some u -> os_closed u = os_closed a).
      { intros i v H. apply nth_set_cases in H as [[<- <-]|[Hi H]]; [auto|]. rewrite nth_error_set_ne in H by auto. eapply r_closed; eauto. }
      intros i v H. apply nth_set_cases in H as [[<- <-]|[Hi H]]; [rewrite Cl3; eauto|eauto]. }
    intros i j v v0 Hu Hv. rewrite (Any _ _ Hu), (Any _ _ Hv). auto.
  - intros j g H. rewrite Ps, app_nil_r, hist_got by auto. destruct (Ne _ _ H) as [[-> ->]|(_ & H' & _)]; [|exact (r_seq _ _ _ I _ _ H')].
    exact (r_seq _ _ _ I _ _ Hf).
  - intros j g H Hl. destruct (Ne _ _ H) as [[-> ->]|(_ & H' & _)]; [cbn in Hl; lia|exact (r_live _ _ _ I _ _ H' Hl)].
Qed.

Lemma rlinv_new : rlinv relay_new [] (fun _ => []).
Proof.
  split; cbn; auto; try (intros [|k]; discriminate).
  - split; cbn; auto; try constructor; try (intros [|k]; discriminate); try tauto.
    + intros [|[|[|i]]] o; cbn; try discriminate; intros [= <-]; auto.
    + intros [|[|[|i]]] o; cbn; try discriminate; intros [= <-]; cbn; lia.
  - intros i [Hi|(n & l & a & Hl & _)]; [|destruct n; discriminate]. destruct i as [|[|i]]; [..|lia]; eexists; split; reflexivity.
  - intros [|[|[|i]]] [|[|[|j]]] a b; cbn; try discriminate; intros [= <-] [= <-]; auto.
  - intros k src pre c dst (n & ks & []).
Qed.

Lemma rlinv_run ops : forall s tr, rlrun relay_new ops = (s, tr) -> exists P, rlinv s tr P.
Proof.
  induction ops as [|o ops IH] using rev_ind; intros s tr; [cbn; intros [= <- <-]; exists (fun _ => []); apply rlinv_new|].
  rewrite rlrun_snoc. destruct (rlrun relay_new ops) as [s1 tr1] eqn:R. destruct (rlstep s1 o) as [s2 x] eqn:B. intros [= <- <-].
  destruct (IH _ _ eq_refl) as [P I]. destruct o.
  - cbn [rlstep] in B. destruct (at_all 0 ONew (rl_origins s1)) as [os ev] eqn:E. injection B as <- <-. exists P.
    refine (rlinv_all s1 tr1 P RlNew ONew I _ _ os ev E); auto.
  - cbn [rlstep] in B. destruct (at_all 0 (OEnd b) (rl_origins s1)) as [os ev] eqn:E. injection B as <- <-. exists P.
    refine (rlinv_all s1 tr1 P (RlEnd b) (OEnd b) I _ _ os ev E); eauto.
  - exists P. refine (rlinv_open s1 tr1 P (RlAccept t) (Some t) (accept_actions t) I _ _ _ s2 x B); auto.
  - exists P. refine (rlinv_open s1 tr1 P RlDial None dial_actions I _ _ _ s2 x B); auto.
  - eapply rlinv_setup; eauto.
  - exists P. eapply rlinv_task; eauto.
  - exists P. eapply rlinv_origin; eauto.
Qed.

(** ** The theorems *)
Lemma in_opening_nth s tr P ot p r : rlinv s tr P -> In (ot, (p, r)) (openings tr) ->
  exists j, nth_error (openings tr) j = Some (ot, (p, r)) /\ p = 2 + 2 * j /\ r = 3 + 2 * j.
Proof.
  intros I H. apply In_nth_error in H as [j H]. exists j. split; auto. pose proof (r_open _ _ _ I _ _ H) as E. cbn [snd] in E.
  injection E as -> ->. auto.
Qed.
Lemma same_opening s tr P e e' : rlinv s tr P -> In e (openings tr) -> In e' (openings tr) -> fst (snd e) = fst (snd e') -> e = e'.
Proof.
  intros I H H' E. destruct e as [ot [p r]], e' as [ot' [p' r']]. cbn in E. subst p'.
  destruct (in_opening_nth _ _ _ _ _ _ I H) as (j & Hj & -> & ->). destruct (in_opening_nth _ _ _ _ _ _ I H') as (j' & Hj' & E & ->).
  assert (j' = j) by lia. subst j'. congruence.
Qed.
Lemma told_why s tr P i x b : rlinv s tr P -> told i x b tr ->
  (2 <= i /\ ~ In i (map (fun e => fst (snd e)) (openings tr))) \/
  (exists src pre prefix suf e, In e (openings tr) /\ In (AForward src pre i prefix) (actions_of e) /\ x = prefix ++ suf /\ told src (pre ++ suf) b tr) \/
  (i = 0 /\ exists e, In e (openings tr) /\ In (AForce x) (actions_of e)).
Proof.
  intros I H. apply (c_told _ _ _ _ _ _ (r_core _ _ _ I)) in H as [H|[(src & pre & prefix & suf & (e & H1 & H2) & H3 & H4)|[(e & H1 & H2) H3]]].
  - auto.
  - right. left. exists src, pre, prefix, suf, e. auto.
  - right. right. eauto.
Qed.

Lemma actions_accept t p r a : In a (accept_actions t p r) ->
  (exists sub src, pl_subscribe t = Some sub /\ src < 2 /\ a = AForward src (pl_path t ++ sub) p sub) \/
  (exists pub, pl_publish t = Some pub /\ a = AForward r pub 0 (pl_path t ++ pub)) \/
  (exists f, pl_force t = Some f /\ a = AForce (pl_path t ++ f)).
Proof.
  unfold accept_actions. rewrite !in_app_iff. intros [H|[H|H]].
  - destruct (pl_subscribe t) as [sub|]; [|destruct H]. left. destruct H as [<-|[<-|[]]]; [exists sub, 0|exists sub, 1]; auto.
  - destruct (pl_publish t) as [pub|]; [|destruct H]. destruct H as [<-|[]]. eauto.
  - destruct (pl_force t) as [f|]; [|destruct H]. destruct H as [<-|[]]. eauto.
Qed.
Lemma actions_dial p r a : In a (dial_actions p r) -> a = AForward 0 [] p [] \/ a = AForward r [] 1 [].
Proof. intros [<-|[<-|[]]]; auto. Qed.

Lemma to_peer s tr P src pre prefix ot p r e : rlinv s tr P -> In (ot, (p, r)) (openings tr) -> In e (openings tr) ->
  In (AForward src pre p prefix) (actions_of e) -> e = (ot, (p, r)).
Proof.
  intros I H He Ha. destruct (in_opening_nth _ _ _ _ _ _ I H) as (j & Hj & Ep & _).
  apply (same_opening s tr P e (ot, (p, r)) I He H). destruct e as [[t|] [p' r']]; cbn [actions_of fst snd] in *.
  - apply actions_accept in Ha as [(sub & sr & _ & _ & E)|[(pub & _ & E)|(f & _ & E)]]; try discriminate; injection E; intros; lia || congruence.
  - apply actions_dial in Ha as [E|E]; injection E; intros; lia || congruence.
Qed.

Lemma learns ops s tr t p r x b : rlrun relay_new ops = (s, tr) -> accepts t p r tr -> told p x b tr ->
  exists sub rest, pl_subscribe t = Some sub /\ x = sub ++ rest /\ (told 0 (pl_path t ++ x) b tr \/ told 1 (pl_path t ++ x) b tr).
Proof.
  intros R A T. destruct (rlinv_run _ _ _ R) as [P I]. destruct (told_why _ _ _ _ _ _ I T) as [[_ H]|[(src & pre & prefix & suf & e & He & Ha & -> & Ts)|(E & _)]].
  - destruct H. apply in_map_iff. exists (Some t, (p, r)). auto.
  - pose proof (to_peer _ _ _ _ _ _ _ _ _ _ I A He Ha) as ->. cbn in Ha. destruct (in_opening_nth _ _ _ _ _ _ I A) as (j & _ & -> & ->).
    apply actions_accept in Ha as [(sub & sr & Es & Ls & E)|[(pub & _ & E)|(f & _ & E)]]; [|discriminate..].
    injection E as -> -> ->. exists sub, suf. split; auto. split; auto. rewrite <- app_assoc in Ts. destruct sr as [|[|sr]]; auto. lia.
  - destruct (in_opening_nth _ _ _ _ _ _ I A) as (j & _ & -> & _). discriminate.
Qed.
Lemma dialled_learns ops s tr p r x b : rlrun relay_new ops = (s, tr) -> dialled p r tr -> told p x b tr -> told 0 x b tr.
Proof.
  intros R A T. destruct (rlinv_run _ _ _ R) as [P I]. destruct (told_why _ _ _ _ _ _ I T) as [[_ H]|[(src & pre & prefix & suf & e & He & Ha & -> & Ts)|(E & _)]].
  - destruct H. apply in_map_iff. exists (None, (p, r)). auto.
  - pose proof (to_peer _ _ _ _ _ _ _ _ _ _ I A He Ha) as ->. cbn [actions_of] in Ha. destruct (in_opening_nth _ _ _ _ _ _ I A) as (j & _ & -> & ->).
    apply actions_dial in Ha as [E|E]; [|discriminate]. injection E as -> -> ->. auto.
  - destruct (in_opening_nth _ _ _ _ _ _ I A) as (j & _ & -> & _). discriminate.
Qed.
Lemma visible ops s tr x b : rlrun relay_new ops = (s, tr) -> told 0 x b tr -> exists t p r, accepts t p r tr /\
  ((exists pub rest, pl_publish t = Some pub /\ x = pl_path t ++ pub ++ rest /\ told r (pub ++ rest) b tr) \/
   (exists f, pl_force t = Some f /\ x = pl_path t ++ f)).
Proof.
  intros R T. destruct (rlinv_run _ _ _ R) as [P I]. destruct (told_why _ _ _ _ _ _ I T) as [[H _]|[(src & pre & prefix & suf & e & He & Ha & -> & Ts)|(_ & e & He & Ha)]].
  - lia.
  - destruct e as [[t|] [p r]]; cbn in Ha; destruct (in_opening_nth _ _ _ _ _ _ I He) as (j & _ & -> & ->).
    + exists t, (2 + 2 * j), (3 + 2 * j). split; auto. apply actions_accept in Ha as [(sub & sr & Es & Ls & E)|[(pub & Ep & E)|(f & _ & E)]]; try discriminate.
      injection E as -> -> ->. left. exists pub, suf. rewrite <- app_assoc. auto.
    + apply actions_dial in Ha as [E|E]; discriminate.
  - destruct e as [[t|] [p r]]; cbn in Ha; destruct (in_opening_nth _ _ _ _ _ _ I He) as (j & _ & -> & ->).
    + exists t, (2 + 2 * j), (3 + 2 * j). split; auto. apply actions_accept in Ha as [(sub & sr & Es & Ls & E)|[(pub & Ep & E)|(f & Ef & E)]]; try discriminate.
      injection E as ->. right. eauto.
    + apply actions_dial in Ha as [E|E]; discriminate.
Qed.
Lemma remote_from ops s tr x b : rlrun relay_new ops = (s, tr) -> told 1 x b tr -> exists p r, dialled p r tr /\ told r x b tr.
Proof.
  intros R T. destruct (rlinv_run _ _ _ R) as [P I]. destruct (told_why _ _ _ _ _ _ I T) as [[H _]|[(src & pre & prefix & suf & e & He & Ha & -> & Ts)|(H & _)]]; try lia.
  destruct e as [[t|] [p r]]; cbn in Ha; destruct (in_opening_nth _ _ _ _ _ _ I He) as (j & _ & -> & ->).
  - apply actions_accept in Ha as [(sub & sr & Es & Ls & E)|[(pub & Ep & E)|(f & _ & E)]]; discriminate.
  - apply actions_dial in Ha as [E|E]; try discriminate. injection E as -> -> ->. exists (2 + 2 * j), (3 + 2 * j). auto.
Qed.

Lemma rest_updates s tr P k f a kk : rlinv s tr P -> at_rest s -> nth_error (rl_fwds s) k = Some f -> fw_over f = false ->
  nth_error (rl_origins s) (fw_src f) = Some a -> get (os_cons a) (fw_cons f) = Some kk -> hlist (fw_hold f) ++ oc_updates kk = [].
Proof.
  intros I [_ At] Hf Ov Na G. specialize (At k). cbn [rlstep] in At. rewrite Hf in At.
  destruct (c_ok _ _ _ _ _ _ (r_core _ _ _ I) _ _ Hf Ov) as (a0 & d & kk0 & Na0 & Nd & G0 & Gp & Pk & Rk & _).
  rewrite Na in Na0. injection Na0 as <-. rewrite G in G0. injection G0 as <-.
  destruct (core_owf _ _ _ _ _ _ _ _ (r_core _ _ _ I) Na) as [W _].
  destruct f as [src c dst p prefix wait hold over]. cbn in *. subst over. unfold at_origin in At.
  destruct hold as [[suf b]|].
  { rewrite Nd in At. destruct (ostep d _) in At. cbn in At. contradiction. }
  rewrite Na in At. destruct wait.
  - destruct (oc_updates kk) as [|z zs] eqn:E; auto. assert (T : oc_token kk = true) by (eapply v_token; eauto; congruence).
    cbn in At. rewrite G in At. destruct kk as [pre u tok rc l']. cbn in *. subst. cbn in At. contradiction.
  - cbn in At. rewrite G in At. destruct kk as [pre u tok rc l']. cbn in *. subst. destruct u as [|[suf b] u]; cbn in At; contradiction.
Qed.
Lemma rest_setup s tr P n l : rlinv s tr P -> at_rest s -> nth_error (rl_todo s) n = Some l -> l = [].
Proof.
  intros I [Se _] H. destruct l as [|a l]; auto. specialize (Se n []). cbn [rlstep] in Se. rewrite H in Se. exfalso. destruct a as [src pre dst prefix|path].
  - assert (forall i, refers i (AForward src pre dst prefix) = true -> exists a, nth_error (rl_origins s) i = Some a /\ get (os_prods a) 0 = Some tt) as Al.
    { intros i Hi. apply (r_alive _ _ _ I). right. exists n, (AForward src pre dst prefix :: l), (AForward src pre dst prefix). split; auto. split; [left|]; auto. }
    destruct (Al src) as (a & Na & Ga); [cbn [refers]; rewrite Nat.eqb_refl; auto|].
    destruct (Al dst) as (b & Nb & Gb); [cbn [refers]; rewrite Nat.eqb_refl; apply orb_true_r|].
    rewrite Na, Nb, Ga, Gb in Se. destruct (at_origin src _ _) as [os1 ev1] in Se. destruct (at_origin dst _ os1) as [os2 ev2] in Se. discriminate.
  - pose proof (r_len _ _ _ I) as L. destruct (rl_origins s) as [|o os]; [cbn in L; lia|]. cbn in Se.
    destruct (at_all 1 ONew os) in Se. cbn in Se. destruct (lookup _ _) in Se; try discriminate. 
    all: repeat match type of Se with context[match ?x with _ => _ end] => destruct x end; discriminate.
Qed.
Lemma delivered s tr P e src pre dst prefix suf b : rlinv s tr P -> at_rest s -> In e (openings tr) -> In (AForward src pre dst prefix) (actions_of e) -> src < 2 ->
  active (pre ++ suf) (history src tr) = Some b -> told dst (prefix ++ suf) b tr.
Proof.
  intros I At He Ha Ls Ac. apply In_nth_error in He as [n Hn].
  destruct (nth_error (rl_todo s) n) as [l|] eqn:Hl. 2:{ apply nth_error_None in Hl. rewrite (r_lent _ _ _ I) in Hl. apply nth_error_len in Hn. lia. }
  destruct (r_todo _ _ _ I _ _ Hl) as (e' & dn & He' & Ea & Td). rewrite Hn in He'. injection He' as <-.
  pose proof (rest_setup _ _ _ _ _ I At Hl) as ->. rewrite app_nil_r in Ea. rewrite Ea in Ha.
  destruct (Td _ _ _ _ Ha) as (k & f & Hf & <- & <- & <- & <-).
  pose proof (r_live _ _ _ I _ _ Hf Ls) as Ov.
  destruct (c_ok _ _ _ _ _ _ (r_core _ _ _ I) _ _ Hf Ov) as (a & d & kk & Na & Nd & G & Gp & Pk & Rk & Sa & Co).
  rewrite (rest_updates _ _ _ _ _ _ _ I At Hf Ov Na G) in Co. destruct (Co _ _ Ac) as [H|[]]. exact H.
Qed.
Lemma delivers ops s tr t p r sub rest b i : rlrun relay_new ops = (s, tr) -> at_rest s -> accepts t p r tr -> pl_subscribe t = Some sub -> i < 2 ->
  active (pl_path t ++ sub ++ rest) (history i tr) = Some b -> told p (sub ++ rest) b tr.
Proof.
  intros R At A Es Hi Ac. destruct (rlinv_run _ _ _ R) as [P I]. rewrite app_assoc in Ac.
  refine (delivered s tr P (Some t, (p, r)) i _ p sub rest b I At A _ Hi Ac). cbn [actions_of]. unfold accept_actions. rewrite Es.
  apply in_app_iff. left. destruct i as [|[|i]]; cbn; auto. lia.
Qed.
Lemma dial_delivers ops s tr p r x b : rlrun relay_new ops = (s, tr) -> at_rest s -> dialled p r tr -> active x (history 0 tr) = Some b -> told p x b tr.
Proof.
  intros R At A Ac. destruct (rlinv_run _ _ _ R) as [P I].
  refine (delivered s tr P (None, (p, r)) 0 [] p [] x b I At A _ _ Ac); [cbn; auto|lia].
Qed.

Lemma in_order ops s tr k src pre c dst : rlrun relay_new ops = (s, tr) -> started k src pre c dst tr ->
  exists cut l h, got c (history src tr) = l ++ h /\ length h <= 1 /\ passed k tr = below cut l /\
    (src < 2 -> exists path, pre = path ++ cut) /\ (dst = 0 -> exists path, cut = path ++ pre).
Proof.
  intros R S. destruct (rlinv_run _ _ _ R) as [P I]. destruct (r_started _ _ _ I _ _ _ _ _ S) as (E & f & Hf & <- & <- & <-).
  destruct (r_seq _ _ _ I _ _ Hf) as (l & L1 & L2). exists (fw_prefix f), l, (hlist (fw_hold f)). split; auto.
  split; [destruct (fw_hold f); cbn; lia|]. split; auto.
  destruct (c_just _ _ _ _ _ _ (r_core _ _ _ I) _ _ Hf) as (e & He & Ha). rewrite E in Ha.
  destruct e as [[t|] [p r]]; cbn [actions_of] in Ha; destruct (in_opening_nth _ _ _ _ _ _ I He) as (j & _ & -> & ->).
  - apply actions_accept in Ha as [(sub & sr & Es & Ls & Ea)|[(pub & Ep & Ea)|(f0 & _ & Ea)]]; try discriminate; injection Ea as -> -> -> ->;
      (split; [intros H; try lia; eauto|intros H; try lia; eauto]).
  - apply actions_dial in Ha as [Ea|Ea]; injection Ea as -> -> -> ->; split; intros H; try lia; exists []; auto.
Qed.

Lemma rlrun_app s ops1 ops2 : rlrun s (ops1 ++ ops2) = let (s1, tr1) := rlrun s ops1 in let (s2, tr2) := rlrun s1 ops2 in (s2, tr1 ++ tr2).
Proof.
  revert s; induction ops1 as [|o ops1 IH]; intros s; cbn.
  - destruct (rlrun s ops2); auto.
  - destruct (rlstep s o) as [s1 x]. rewrite IH. destruct (rlrun s1 ops1) as [s2 t2]. destruct (rlrun s2 ops2); auto.
Qed.
Lemma get_local_first ops s tr ops' s' tr' locals remotes path : rlrun relay_new ops = (s, tr) -> rlrun s ops' = (s', tr') ->
  nth_error (rl_origins s) 0 = Some locals -> nth_error (rl_origins s') 1 = Some remotes ->
  cluster_get locals remotes path = match active path (history 0 tr) with Some b => Some b | None => active path (history 1 (tr ++ tr')) end.
Proof.
  intros R R' Nl Nr. pose proof (rlrun_app relay_new ops ops') as Ra. rewrite R, R' in Ra.
  destruct (rlinv_run _ _ _ R) as [P I]. destruct (rlinv_run _ _ _ Ra) as [P' I'].
  destruct (core_owf _ _ _ _ _ _ _ _ (r_core _ _ _ I) Nl) as [_ Y]. destruct (core_owf _ _ _ _ _ _ _ _ (r_core _ _ _ I') Nr) as [_ Y'].
  unfold cluster_get. rewrite (y_active _ _ Y), (y_active _ _ Y'). auto.
Qed.

Lemma never_stops ops s tr k src pre c dst : rlrun relay_new ops = (s, tr) -> started k src pre c dst tr -> src < 2 ->
  ro_did (snd (rlstep s (RlStep k))) <> [].
Proof.
  intros R S L. destruct (rlinv_run _ _ _ R) as [P I]. destruct (r_started _ _ _ I _ _ _ _ _ S) as (E & f & Hf & <- & <- & <-).
  pose proof (r_live _ _ _ I _ _ Hf L) as Ov. destruct (c_ok _ _ _ _ _ _ (r_core _ _ _ I) _ _ Hf Ov) as (a & d & kk & Na & Nd & G & Gp & _).
  cbn [rlstep]. rewrite Hf. destruct f as [src c0 dst p prefix wait hold over]. cbn in *. subst over. unfold at_origin.
  destruct hold as [[suf b]|].
  - rewrite Nd. destruct (ostep d _). cbn. discriminate.
  - rewrite Na. destruct wait; destruct (ostep a _) as [a1 y]; destruct y; cbn; try discriminate.
    repeat match goal with |- context[match ?x with _ => _ end] => destruct x end; cbn; discriminate.
Qed.

Lemma live_exists {A} (t : table A) : live t = true -> exists h a, get t h = Some a.
Proof.
  induction t as [|[a|] t IH]; cbn; try discriminate.
  - intros _. exists 0, a. reflexivity.
  - intros H. destruct (IH H) as (h & a & E). exists (S h), a. exact E.
Qed.
Lemma publishing_stops ops s tr k src pre c dst o : rlrun relay_new ops = (s, tr) -> started k src pre c dst tr -> at_rest s ->
  nth_error (rl_origins s) src = Some o -> (forall p, ~ producing o p) -> settled o ->
  (forall x b, In b (announced x (history src tr)) -> ended b (history src tr)) -> ro_did (snd (rlstep s (RlStep k))) = [].
Proof.
  intros R S At No Np Se En. destruct (rlinv_run _ _ _ R) as [P I]. destruct (r_started _ _ _ I _ _ _ _ _ S) as (E & f & Hf & <- & <- & <-).
  destruct (core_owf _ _ _ _ _ _ _ _ (r_core _ _ _ I) No) as [W Y].
  assert (Al : os_alive o = false).
  { unfold os_alive. apply orb_false_iff. split.
    - destruct (live (os_prods o)) eqn:L; auto. apply live_exists in L as (h & [] & L). destruct (Np h). unfold producing. cbn. rewrite L. auto.
    - destruct (live (os_tasks o)) eqn:L; auto. apply live_exists in L as (h & [p b] & L). specialize (Se h). cbn in Se. rewrite L in Se.
      pose proof (En _ _ (y_task _ _ Y _ _ _ L)) as Eb. apply (y_closed _ _ Y) in Eb. rewrite Eb in Se. discriminate. }
  destruct (fw_over f) eqn:Ov.
  - cbn [rlstep]. rewrite Hf. destruct f. cbn in Ov. subst. auto.
  - exfalso. destruct At as [_ At]. specialize (At k).
    destruct (c_ok _ _ _ _ _ _ (r_core _ _ _ I) _ _ Hf Ov) as (a & d & kk & Na & Nd & G & Gp & Pk & Rk & Sa & Co). rewrite No in Na. injection Na as <-.
    cbn [rlstep] in At. rewrite Hf in At. destruct f as [src c dst p prefix wait hold over]. cbn in *. subst over. unfold at_origin in At.
    destruct hold as [[suf b]|].
    { rewrite Nd in At. destruct (ostep d _) in At. cbn in At. contradiction. }
    rewrite No in At. destruct kk as [pre0 u tok rc l]. cbn in Rk. subst rc. destruct wait; cbn in At; rewrite G in At.
    + rewrite Al, andb_false_r in At. destruct tok; cbn in At; auto.
      match type of At with context[snd (let (_, _) := ?X in _)] => destruct X as [os1 ev1] end.
      match type of At with context[snd (let (_, _) := ?X in _)] => destruct X as [os2 ev2] end.
      cbn in At. destruct (ev1 ++ ev2); auto.
    + destruct u as [|[suf b] u]; cbn in At; auto.
Qed.
