(** A network without circles comes to rest: a measure that every change makes smaller. *)
From Coq Require Import NArith ZArith List Lia Bool Permutation.
From Coq Require Import Init.Byte Strings.Byte.
From Coq Require Import ZifyBool ZifyNat ZifyN.
From Verif.Model Require Import OriginSys Base Coding Message ErrorCode Stream Frame FrameSys Map Publisher ReceiverSys Spread.
From Verif.Spec Require Import OriginSpec SpreadSpec RestSpec.
From Verif.Proofs Require Import TableP MapP BroadcastP OriginP OriginTop RelaySysP ReceiverP SpreadP SpreadFrameP SpreadTurnP SpreadRecvP SpreadNetP SpreadStepP SpreadInvP SpreadRunP SpreadAllP SpreadTraceP SpreadChainP.
Import ListNotations.
Open Scope nat_scope.
#[local] Arguments put : simpl never.
#[local] Arguments remove : simpl never.
#[local] Arguments lookup : simpl never.
#[local] Arguments set_nth : simpl never.

(** * Sums *)
Lemma sum_cons x l : list_sum (x :: l) = x + list_sum l.
Proof. reflexivity. Qed.
#[local] Opaque list_sum.
Lemma sum_le {A} (f g : A -> nat) l : (forall x, In x l -> f x <= g x) -> list_sum (map f l) <= list_sum (map g l).
Proof.
  induction l as [|x l IH]; intros H; cbn [map]; [lia|]. rewrite !sum_cons. assert (f x <= g x) by (apply H; left; auto).
  assert (list_sum (map f l) <= list_sum (map g l)) by (apply IH; intros; apply H; right; auto). lia.
Qed.
Lemma sum_add {A} (f g h : A -> nat) l : (forall x, In x l -> f x <= g x + h x) ->
  list_sum (map f l) <= list_sum (map g l) + list_sum (map h l).
Proof.
  induction l as [|x l IH]; intros H; cbn [map]; [lia|]. rewrite !sum_cons. assert (f x <= g x + h x) by (apply H; left; auto).
  assert (list_sum (map f l) <= list_sum (map g l) + list_sum (map h l)) by (apply IH; intros; apply H; right; auto). lia.
Qed.
Lemma sum_set {A} (f : A -> nat) k x y : forall l, nth_error l k = Some y -> list_sum (map f (set_nth k x l)) + f y = list_sum (map f l) + f x.
Proof.
  induction k as [|k IH]; intros [|z l] H; try discriminate.
  - injection H as ->. change (set_nth 0 x (y :: l)) with (x :: l). cbn [map]. rewrite !sum_cons. lia.
  - cbn in H. specialize (IH l H). change (set_nth (S k) x (z :: l)) with (z :: set_nth k x l). cbn [map]. rewrite !sum_cons. lia.
Qed.

(** * The measure *)
Definition qlen (os : list osys) (n c : nat) : nat :=
  match nth_error os n with Some o => match get (os_cons o) c with Some k => length (oc_updates k) | None => 0 end | None => 0 end.
Definition tokn (os : list osys) (n c : nat) : nat :=
  match nth_error os n with Some o => match get (os_cons o) c with Some k => if oc_token k then 1 else 0 | None => 0 end | None => 0 end.
Definition calmer (os os' : list osys) : Prop := forall n c, qlen os' n c <= qlen os n c /\ tokn os' n c <= tokn os n c.
Definition opot (o : osys) : nat := length (os_vec o) + length (filter (fun t : option (bytes * nat) => match t with Some _ => true | None => false end) (os_tasks o)).

Lemma calmer_refl os : calmer os os.
Proof. intros n c. lia. Qed.
Lemma calmer_trans a b c : calmer a b -> calmer b c -> calmer a c.
Proof. intros H1 H2 n k. specialize (H1 n k). specialize (H2 n k). lia. Qed.

Definition ck (k : option ocons) : nat := match k with Some k => length (oc_updates k) | None => 0 end.
Definition ct (k : option ocons) : nat := match k with Some k => if oc_token k then 1 else 0 | None => 0 end.
Lemma calmer_set os n o o' : nth_error os n = Some o ->
  (forall c, ck (get (os_cons o') c) <= ck (get (os_cons o) c) /\ ct (get (os_cons o') c) <= ct (get (os_cons o) c)) -> calmer os (set_nth n o' os).
Proof.
  intros H K m c. unfold qlen, tokn. destruct (Nat.eq_dec m n) as [->|N].
  - rewrite nth_error_set_eq, H by (apply nth_error_Some; congruence). exact (K c).
  - rewrite nth_error_set_ne by auto. lia.
Qed.

(** Operations that publish nothing. *)
Definition mild (op : oop) : Prop := match op with OPop _ | ORecv _ | OCancel _ | OCDrop _ | OTask _ | OUnused _ | ODrop _ => True | _ => False end.
Lemma get_set_ne {A} c d (x : option A) t : c <> d -> get (set_nth c x t) d = get t d.
Proof. intros N. unfold get. rewrite nth_error_set_ne by auto. reflexivity. Qed.
Lemma get_set_at {A} c (x : option A) t k : get t c = Some k -> get (set_nth c x t) c = x.
Proof. intros H. unfold get. rewrite nth_error_set_eq by (exact (get_lt _ _ _ H)). destruct x; reflexivity. Qed.

Lemma mild_step o op o' x : ostep o op = (o', x) -> mild op ->
  (forall c, ck (get (os_cons o') c) <= ck (get (os_cons o) c) /\ ct (get (os_cons o') c) <= ct (get (os_cons o) c)) /\ opot o' <= opot o.
Proof.
  intros B M.
  assert (Z : (forall c, ck (get (os_cons o) c) <= ck (get (os_cons o) c) /\ ct (get (os_cons o) c) <= ct (get (os_cons o) c)) /\ opot o <= opot o) by (split; [intros; split|]; lia).
  assert (Y : forall c k k', get (os_cons o) c = Some k -> ck k' <= ck (Some k) -> ct k' <= ct (Some k) ->
     (forall d, ck (get (set_nth c k' (os_cons o)) d) <= ck (get (os_cons o) d) /\ ct (get (set_nth c k' (os_cons o)) d) <= ct (get (os_cons o) d))).
  { intros c k k' G L1 L2 d. destruct (Nat.eq_dec c d) as [<-|N]; [rewrite (get_set_at _ _ _ _ G), G; auto|rewrite get_set_ne by auto; lia]. }
  destruct op; try contradiction; cbn [ostep] in B.
  - (* OTask *) destruct (get (os_tasks o) k) as [[path b]|] eqn:G; [|injection B as <- <-; auto].
    destruct (nth_error (os_closed o) b) as [[]|]; try (injection B as <- <-; auto; fail). injection B as <- <-. cbn. split; [intros; split; lia|].
    unfold opot. cbn. apply Nat.add_le_mono_l. clear. revert k. induction (os_tasks o) as [|t ts IH]; intros [|k]; unfold set_nth; fold (@set_nth (option (bytes * nat))); cbn; auto.
    + destruct t; cbn; lia.
    + specialize (IH k). destruct t; cbn; lia.
  - (* OPop *) destruct (get (os_cons o) c) as [[pre u tok [] l]|] eqn:G; try (injection B as <- <-; auto; fail).
    destruct u as [|[s b] u]; injection B as <- <-; (split; [|unfold opot; cbn; lia]); cbn [owith_cons os_cons]; eapply Y; eauto; cbn; lia.
  - destruct (get (os_cons o) c) as [[pre u tok [] l]|] eqn:G; try (injection B as <- <-; auto; fail).
    destruct tok; [|destruct (l && os_alive o); [injection B as <- <-; auto|]]; injection B as <- <-; (split; [|unfold opot; cbn; lia]); cbn [owith_cons os_cons]; eapply Y; eauto; cbn; lia.
  - destruct (get (os_cons o) c) as [[pre u tok [] l]|] eqn:G; try (injection B as <- <-; auto; fail).
    injection B as <- <-; (split; [|unfold opot; cbn; lia]); cbn [owith_cons os_cons]; eapply Y; eauto; cbn; lia.
  - destruct (get (os_cons o) c) as [k|] eqn:G; injection B as <- <-; auto. (split; [|unfold opot; cbn; lia]); cbn [owith_cons os_cons]; eapply Y; eauto; cbn; lia.
  - destruct (get (os_prods o) p); injection B as <- <-; auto.
  - destruct (get (os_prods o) p); injection B as <- <-; auto. cbn. split; [intros; split; lia|]. unfold opot. cbn.
    destruct (pop_closed_suffix (os_cons o) (rev (os_vec o))) as (d & E & _). rewrite rev_length. apply (f_equal (@length nat)) in E. rewrite rev_length, app_length in E. lia.
Qed.

Definition osum (os : list osys) : nat := list_sum (map opot os).
Lemma mild_on i op os os' ev : on_origin i op os = (os', ev) -> mild op -> calmer os os' /\ osum os' <= osum os.
Proof.
  unfold on_origin. destruct (nth_error os i) as [o|] eqn:H; [|intros [= <- <-] _; split; [apply calmer_refl|lia]].
  destruct (ostep o op) as [o' x] eqn:B. intros [= <- <-] M. destruct (mild_step _ _ _ _ B M) as (K & L). split; [eapply calmer_set; eauto|].
  unfold osum. pose proof (sum_set opot i o' o os H). lia.
Qed.

Section Pot.
Context (W : nat -> nat).

Definition lpot (os : list osys) (l : link) : nat :=
  if lk_over l then 0
  else 1 + qlen os (lk_src l) (lk_cons l) * (W (lk_dst l) + 2) + 2 * tokn os (lk_src l) (lk_cons l) +
       (if lk_wait l then 0 else 1) + match lk_hold l with Some _ => S (W (lk_dst l)) | None => 0 end.
Definition mcost (w : nat) (m : Message.announce) : nat := match m with Active _ => w + 2 | Ended _ => 1 end.
Definition hpot (os : list osys) (p : hop) : nat :=
  (if an_over (hp_ann p) then 0
   else 1 + qlen os (hp_src p) (hp_cons p) * (W (hp_dst p) + 5) + tokn os (hp_src p) (hp_cons p) + 2 * length (an_tasks (hp_ann p))) +
  list_sum (map (mcost (W (hp_dst p))) (hp_wire p)) + match hp_left p with None => 1 | Some _ => 0 end + length (filter snd (hp_runs p)).
Definition lsum os ls := list_sum (map (lpot os) ls).
Definition hsum os hs := list_sum (map (hpot os) hs).
Definition pot (s : spread) : nat := osum (sp_origins s) + lsum (sp_origins s) (sp_links s) + hsum (sp_origins s) (sp_hops s).

Lemma lpot_calmer os os' l : calmer os os' -> lpot os' l <= lpot os l.
Proof. intros H. unfold lpot. destruct (lk_over l); auto. specialize (H (lk_src l) (lk_cons l)). nia. Qed.
Lemma hpot_calmer os os' p : calmer os os' -> hpot os' p <= hpot os p.
Proof. intros H. unfold hpot. destruct (an_over (hp_ann p)); auto. specialize (H (hp_src p) (hp_cons p)). nia. Qed.
Lemma lsum_calmer os os' ls : calmer os os' -> lsum os' ls <= lsum os ls.
Proof. intros H. apply sum_le. intros l _. apply lpot_calmer. auto. Qed.
Lemma hsum_calmer os os' hs : calmer os os' -> hsum os' hs <= hsum os hs.
Proof. intros H. apply sum_le. intros l _. apply hpot_calmer. auto. Qed.

(** What publishing at an origin can add. *)
Definition lcost (n : nat) (l : nat * nat * bytes * nat * bytes) : nat := let '(a, _, _, b, _) := l in if Nat.eqb a n then W b + 4 else 0.
Definition hcost (n : nat) (p : nat * nat * bytes * nat) : nat := let '(a, _, _, b) := p in if Nat.eqb a n then W b + 6 else 0.
Definition cost (L : list (nat * nat * bytes * nat * bytes)) (H : list (nat * nat * bytes * nat)) (n : nat) : nat :=
  list_sum (map (lcost n) L) + list_sum (map (hcost n) H).

Lemma publish_pot os ls hs n o p path b o' x : nth_error os n = Some o -> owf o -> ostep o (OPublish p path b) = (o', x) ->
  let os' := set_nth n o' os in
  osum os' + lsum os' ls + hsum os' hs <= osum os + lsum os ls + hsum os hs + 1 + cost (map lstat ls) (map hstat hs) n.
Proof.
  intros H Wf B os'.
  assert (K : forall c, ck (get (os_cons o') c) <= ck (get (os_cons o) c) + 1 /\ ct (get (os_cons o') c) <= ct (get (os_cons o) c) + 1).
  { destruct (publish_cases _ _ _ _ _ _ Wf B) as [(_ & ->)|(_ & _ & E)]; intros c; [lia|]. rewrite E. destruct (get (os_cons o) c) as [k|]; cbn; [|lia].
    destruct (oc_linked k); cbn; [|lia]. unfold oc_insert. destruct (strip_prefix _ _); cbn; rewrite ?app_length; cbn; destruct (oc_token k); lia. }
  assert (O : opot o' <= opot o + 1).
  { cbn [ostep] in B. destruct (get (os_prods o) p) as [u|]; [|injection B as <- <-; lia]. destruct (nth_error (os_closed o) b); [|injection B as <- <-; lia].
    destruct (announce_spec path b (length (os_vec o)) [] (os_vec o) (os_cons o)) as (cons' & r' & E & N' & I & _); [lia|apply Wf|].
    cbn [length app] in *. rewrite E in B. injection B as <- <-. unfold opot. cbn. rewrite filter_app, app_length. cbn.
    pose proof (NoDup_incl_length N' I). lia. }
  assert (Q : forall m c, qlen os' m c <= qlen os m c + (if Nat.eqb m n then 1 else 0) /\ tokn os' m c <= tokn os m c + (if Nat.eqb m n then 1 else 0)).
  { intros m c. unfold qlen, tokn, os'. destruct (Nat.eqb_spec m n) as [->|Ne].
    - rewrite nth_error_set_eq, H by (apply nth_error_Some; congruence). exact (K c).
    - rewrite nth_error_set_ne by auto. lia. }
  assert (L : lsum os' ls <= lsum os ls + list_sum (map (lcost n) (map lstat ls))).
  { rewrite map_map. apply sum_add. intros l _. unfold lpot, lcost, lstat. destruct (lk_over l); [lia|]. specialize (Q (lk_src l) (lk_cons l)). destruct (Nat.eqb (lk_src l) n); nia. }
  assert (Hs : hsum os' hs <= hsum os hs + list_sum (map (hcost n) (map hstat hs))).
  { rewrite map_map. apply sum_add. intros l _. unfold hpot, hcost, hstat. destruct (an_over (hp_ann l)); [lia|]. specialize (Q (hp_src l) (hp_cons l)). destruct (Nat.eqb (hp_src l) n); nia. }
  pose proof (sum_set opot n o' o os H). fold (osum os) in *. fold os' in H0. fold (osum os') in H0. unfold cost. lia.
Qed.

(** Broadcasts being made or closed changes nothing. *)
Lemma filter_pad (l : list (bytes * bool)) n : filter snd (l ++ repeat (([] : bytes), false) n) = filter snd l.
Proof.
  assert (E : filter snd (repeat (([] : bytes), false) n) = []) by (induction n; cbn; auto). rewrite filter_app, E. apply app_nil_r.
Qed.
Lemma qlen_closed c os n k : qlen (map (with_closed c) os) n k = qlen os n k.
Proof. unfold qlen. rewrite nth_error_map. destruct (nth_error os n); reflexivity. Qed.
Lemma tokn_closed c os n k : tokn (map (with_closed c) os) n k = tokn os n k.
Proof. unfold tokn. rewrite nth_error_map. destruct (nth_error os n); reflexivity. Qed.
Lemma pot_everywhere c s : pot (everywhere c s) = pot s.
Proof.
  unfold pot, everywhere, osum, lsum, hsum. cbn. rewrite !map_map.
  assert (E1 : map (fun x => opot (with_closed c x)) (sp_origins s) = map opot (sp_origins s)) by (apply map_ext; reflexivity).
  assert (E2 : map (lpot (map (with_closed c) (sp_origins s))) (sp_links s) = map (lpot (sp_origins s)) (sp_links s)).
  { apply map_ext. intros a. unfold lpot. rewrite qlen_closed, tokn_closed. reflexivity. }
  assert (E3 : map (fun x => hpot (map (with_closed c) (sp_origins s)) (with_runs (length c) x)) (sp_hops s) = map (hpot (sp_origins s)) (sp_hops s)).
  { apply map_ext. intros a. unfold hpot. cbn. rewrite qlen_closed, tokn_closed, filter_pad. reflexivity. }
  rewrite E1, E2, E3. reflexivity.
Qed.

(** * Steps *)
Lemma origins_same s : with_origins s (sp_origins s) = s.
Proof. destruct s; reflexivity. Qed.
Lemma link_same s k l : nth_error (sp_links s) k = Some l -> with_link s k (sp_origins s) l = s.
Proof. intros H. unfold with_link. rewrite (set_same _ _ _ H). destruct s; reflexivity. Qed.
Lemma hop_same s h p : nth_error (sp_hops s) h = Some p -> with_hop s h (sp_origins s) p = s.
Proof. intros H. unfold with_hop. rewrite (set_same _ _ _ H). destruct s; reflexivity. Qed.
Lemma pot_origins s os' : pot (with_origins s os') = osum os' + lsum os' (sp_links s) + hsum os' (sp_hops s).
Proof. reflexivity. Qed.
Lemma pot_link s k os' l l' : nth_error (sp_links s) k = Some l ->
  pot (with_link s k os' l') + lpot os' l = osum os' + lsum os' (sp_links s) + hsum os' (sp_hops s) + lpot os' l'.
Proof. intros H. unfold pot, with_link, lsum. cbn. pose proof (sum_set (lpot os') k l' l _ H). lia. Qed.
Lemma pot_hop s h os' p p' : nth_error (sp_hops s) h = Some p ->
  pot (with_hop s h os' p') + hpot os' p = osum os' + lsum os' (sp_links s) + hsum os' (sp_hops s) + hpot os' p'.
Proof. intros H. unfold pot, with_hop, hsum. cbn. pose proof (sum_set (hpot os') h p' p _ H). lia. Qed.
Lemma calmer_pot s os' : calmer (sp_origins s) os' -> osum os' <= osum (sp_origins s) ->
  osum os' + lsum os' (sp_links s) + hsum os' (sp_hops s) <= pot s.
Proof. intros H L. pose proof (lsum_calmer _ _ (sp_links s) H). pose proof (hsum_calmer _ _ (sp_hops s) H). unfold pot. lia. Qed.

Lemma qlen_at os n o c : n < length os -> qlen (set_nth n o os) n c = ck (get (os_cons o) c).
Proof. intros L. unfold qlen. rewrite nth_error_set_eq by auto. reflexivity. Qed.
Lemma tokn_at os n o c : n < length os -> tokn (set_nth n o os) n c = ct (get (os_cons o) c).
Proof. intros L. unfold tokn. rewrite nth_error_set_eq by auto. reflexivity. Qed.
Lemma qlen_is os n o c : nth_error os n = Some o -> qlen os n c = ck (get (os_cons o) c).
Proof. intros H. unfold qlen. rewrite H. reflexivity. Qed.
Lemma tokn_is os n o c : nth_error os n = Some o -> tokn os n c = ct (get (os_cons o) c).
Proof. intros H. unfold tokn. rewrite H. reflexivity. Qed.

Lemma task_pot o k o' x : ostep o (OTask k) = (o', x) -> o' = o \/ opot o' < opot o.
Proof.
  cbn [ostep]. destruct (get (os_tasks o) k) as [[path b]|] eqn:G; [|intros [= <- <-]; auto].
  destruct (nth_error (os_closed o) b) as [[]|]; try (intros [= <- <-]; auto; fail). intros [= <- <-]. right. unfold opot. cbn. apply Nat.add_lt_mono_l.
  revert k G. induction (os_tasks o) as [|t ts IH]; intros [|k] G; try discriminate.
  - unfold get in G. cbn in G. destruct t as [t|]; [injection G as ->|discriminate]. change (set_nth 0 None (Some (path, b) :: ts)) with (None :: ts). cbn. lia.
  - change (set_nth (S k) None (t :: ts)) with (t :: set_nth k None ts). specialize (IH k G). destruct t; cbn; lia.
Qed.

Lemma sum_move {A} (f g : A -> nat) k x y : (forall z, f z <= g z) -> f x < g y -> forall l, nth_error l k = Some y ->
  list_sum (map f (set_nth k x l)) < list_sum (map g l).
Proof.
  intros H L. induction k as [|k IH]; intros [|z l] Hk; try discriminate.
  - injection Hk as ->. change (set_nth 0 x (y :: l)) with (x :: l). cbn [map]. rewrite !sum_cons. pose proof (sum_le f g l (fun z _ => H z)). lia.
  - change (set_nth (S k) x (z :: l)) with (z :: set_nth k x l). cbn [map]. rewrite !sum_cons. specialize (IH l Hk). specialize (H z). lia.
Qed.
Lemma lsum_move os os' ls k l l' : calmer os os' -> nth_error ls k = Some l -> lpot os' l' < lpot os l -> lsum os' (set_nth k l' ls) < lsum os ls.
Proof. intros H Hk L. apply (sum_move _ _ k l' l); auto. intros z. apply lpot_calmer. auto. Qed.
Lemma hsum_move os os' hs k p p' : calmer os os' -> nth_error hs k = Some p -> hpot os' p' < hpot os p -> hsum os' (set_nth k p' hs) < hsum os hs.
Proof. intros H Hk L. apply (sum_move _ _ k p' p); auto. intros z. apply hpot_calmer. auto. Qed.

Ltac at_link os' Lo Ho K :=
  unfold lpot; cbn [lk_over lk_src lk_cons lk_dst lk_wait lk_hold]; unfold os';
  rewrite (qlen_at _ _ _ _ Lo), (tokn_at _ _ _ _ Lo), (qlen_is _ _ _ _ Ho), (tokn_is _ _ _ _ Ho), K;
  cbn [owith_cons os_cons]; rewrite (get_set_at _ _ _ _ K); cbn; lia.

Section Step.
Context (s : spread) (P : pubs_fn) (G : got_fn) (N : net_s s P G).
Context (HW : forall n, 1 + cost (LS s) (HS s) n <= W n).
Let os := sp_origins s.

Lemma clean_pot n k : fst (spstep s (SClean n k)) = s \/ pot (fst (spstep s (SClean n k))) < pot s.
Proof.
  cbn [spstep]. unfold on_origin. fold os. destruct (nth_error os n) as [o|] eqn:H; [|left; apply origins_same].
  destruct (ostep o (OTask k)) as [o' x] eqn:B. cbn [fst]. destruct (task_pot _ _ _ _ B) as [->|L].
  - left. rewrite (set_same _ _ _ H). apply origins_same.
  - right. rewrite pot_origins. destruct (mild_step _ _ _ _ B I) as (K & _).
    pose proof (calmer_set os n o o' H K) as Cm. pose proof (lsum_calmer _ _ (sp_links s) Cm). pose proof (hsum_calmer _ _ (sp_hops s) Cm).
    pose proof (sum_set opot n o' o os H). unfold pot, osum. fold os. lia.
Qed.

Lemma publish_here n o p path b o' x : nth_error os n = Some o -> ostep o (OPublish p path b) = (o', x) ->
  osum (set_nth n o' os) + lsum (set_nth n o' os) (sp_links s) + hsum (set_nth n o' os) (sp_hops s) <= pot s + W n.
Proof.
  intros H B. pose proof (publish_pot os (sp_links s) (sp_hops s) n o p path b o' x H (nd_owf _ _ _ (n_node _ _ _ _ _ _ _ N _ _ H)) B) as L. cbn in L.
  specialize (HW n). unfold LS, HS in HW. unfold pot. fold os. lia.
Qed.

Lemma step_pot k : fst (spstep s (SStep k)) = s \/ pot (fst (spstep s (SStep k))) < pot s.
Proof.
  cbn [spstep]. destruct (nth_error (sp_links s) k) as [[src c pre dst add wait hold over]|] eqn:Hk; [|left; reflexivity].
  destruct over; [left; reflexivity|].
  pose proof (nth_error_In _ _ Hk) as Ik. pose proof (n_links _ _ _ _ _ _ _ N _ Ik) as [(o & Ho & Tk) _ _]. cbn in Ho, Tk. fold os in Ho.
  destruct Tk as (kk & K & Kp & Kr & _). assert (Lo : src < length os) by (apply nth_error_Some; congruence).
  destruct hold as [[suf b]|].
  - right. destruct (n_ldst _ _ _ _ _ _ _ N _ Ik) as (Ld & _). cbn in Ld. fold os in Ld. destruct (nth_error os dst) as [d|] eqn:Hd; [|apply nth_error_None in Hd; lia].
    destruct (ostep d (OPublish 0 (add ++ suf) b)) as [d' x] eqn:B. unfold on_origin. fold os. rewrite Hd, B. cbn [fst].
    pose proof (publish_here _ _ _ _ _ _ _ Hd B) as L.
    pose proof (pot_link s k (set_nth dst d' os) _ (Link src c pre dst add wait None false) Hk) as E. unfold lpot in E. cbn [lk_over lk_src lk_cons lk_dst lk_wait lk_hold] in E. lia.
  - destruct wait.
    + fold os. destruct (ostep o (ORecv c)) as [o' x] eqn:B. rewrite (on_some _ _ _ _ _ _ Ho B). pose proof B as B0. cbn [ostep] in B. rewrite K in B. destruct kk as [kp ku kt kr kl]. cbn in Kp, Kr. subst kp kr.
      destruct (mild_on src (ORecv c) os (set_nth src o' os) [(src, (ORecv c, x))]) as (Cm & Lm); [unfold on_origin; rewrite Ho, B0; reflexivity|exact I|].
      pose proof (calmer_pot s _ Cm Lm) as L.
      destruct kt.
      * injection B as <- <-. right. cbn [fst]. set (os' := set_nth src _ os) in *.
        assert (L4 : lpot os' (Link src c pre dst add false None false) < lpot os (Link src c pre dst add true None false)) by at_link os' Lo Ho K.
        pose proof (lsum_move _ _ _ _ _ _ Cm Hk L4) as Z. pose proof (hsum_calmer _ _ (sp_hops s) Cm) as L3. unfold pot, with_link. cbn. fold os. lia.
      * destruct (kl && os_alive o) eqn:Al.
        -- injection B as <- <-. left. cbn [fst]. rewrite (set_same _ _ _ Ho). exact (link_same _ _ _ Hk).
        -- injection B as <- <-. right. destruct (on_origin src (OCDrop c) _) as [os1 ev1] eqn:B1. cbn [fst].
           destruct (mild_on _ _ _ _ _ B1 I) as (Cm1 & Lm1). pose proof (calmer_trans _ _ _ Cm Cm1) as Cm2. assert (Lm2 : osum os1 <= osum os) by lia.
           pose proof (pot_link s k os1 _ (Link src c pre dst add false None true) Hk) as E. pose proof (calmer_pot s _ Cm2 Lm2). unfold lpot in E. cbn [lk_over lk_src lk_cons lk_dst lk_wait lk_hold] in E. lia.
    + fold os. destruct (ostep o (OPop c)) as [o' x] eqn:B. rewrite (on_some _ _ _ _ _ _ Ho B). pose proof B as B0. cbn [ostep] in B. rewrite K in B. destruct kk as [kp ku kt kr kl]. cbn in Kp, Kr. subst kp kr.
      destruct (mild_on src (OPop c) os (set_nth src o' os) [(src, (OPop c, x))]) as (Cm & Lm); [unfold on_origin; rewrite Ho, B0; reflexivity|exact I|].
      right. set (os' := set_nth src o' os) in *. pose proof (hsum_calmer _ _ (sp_hops s) Cm) as L3.
      destruct ku as [|[suf b] ku]; injection B as <- <-; cbn [fst].
      * assert (L4 : lpot os' (Link src c pre dst add true None false) < lpot os (Link src c pre dst add false None false)) by at_link os' Lo Ho K.
        pose proof (lsum_move _ _ _ _ _ _ Cm Hk L4) as Z. unfold pot, with_link. cbn. fold os. fold os'. lia.
      * assert (L4 : lpot os' (Link src c pre dst add false (Some (suf, b)) false) < lpot os (Link src c pre dst add false None false)) by at_link os' Lo Ho K.
        pose proof (lsum_move _ _ _ _ _ _ Cm Hk L4) as Z. unfold pot, with_link. cbn. fold os. fold os'. lia.
Qed.

Lemma turn_pot h j ks : fst (spstep s (STurn h j ks)) = s \/ pot (fst (spstep s (STurn h j ks))) < pot s.
Proof.
  cbn [spstep]. destruct (nth_error (sp_hops s) h) as [[src c pre dst a wire m lf runs open]|] eqn:Hh; [|left; reflexivity].
  destruct (an_over a) eqn:Ov; [left; reflexivity|].
  pose proof (nth_error_In _ _ Hh) as Ih. pose proof (n_hops _ _ _ _ _ _ _ N _ Ih) as Ok.
  destruct (ho_src _ _ _ _ _ Ok) as (o & Ho & Tk). cbn in Ho, Tk. fold os in Ho. specialize (Tk Ov). destruct Tk as (kk & K & Kp & Kr & _).
  destruct (ho_ann _ _ _ _ _ Ok) as (Eq & Eg & Ec). cbn in Eq, Eg, Ec. destruct a as [aq ag ac act T ao]. cbn in Eq, Eg, Ec, Ov. subst aq ag ac ao. clear Ok Ih.
  assert (Lo : src < length os) by (apply nth_error_Some; congruence). destruct kk as [kp ku kt kr kl]. cbn in Kp, Kr. subst kp kr.
  set (C0 := shut (sp_closed s)). change (knowing C0 (Ann [] false [] act T false)) with (Ann [] false C0 act T false).
  destruct open.
  - destruct (ostep o (OPop c)) as [o' x] eqn:B. fold os. rewrite (on_some _ _ _ _ _ _ Ho B).
    destruct (mild_on src (OPop c) os (set_nth src o' os) [(src, (OPop c, x))] (on_some _ _ _ _ _ _ Ho B) I) as (Cm & Lm).
    cbn [ostep] in B. rewrite K in B. destruct ku as [|[suf b] ku].
    + injection B as <- <-. set (o1 := owith_cons o _) in *. set (os1 := set_nth src o1 os) in *.
      assert (H1 : nth_error os1 src = Some o1) by (apply nth_error_set_eq; auto).
      assert (K1 : get (os_cons o1) c = Some (OCons pre [] kt true kl)) by (unfold o1; cbn [owith_cons os_cons]; exact (get_set_at _ _ _ _ K)).
      destruct (ostep o1 (ORecv c)) as [o2 x2] eqn:B2. rewrite (on_some _ _ _ _ _ _ H1 B2).
      destruct (mild_on src (ORecv c) os1 (set_nth src o2 os1) _ (on_some _ _ _ _ _ _ H1 B2) I) as (Cm2 & Lm2).
      pose proof (calmer_trans _ _ _ Cm Cm2) as Cm3.
      cbn [ostep] in B2. rewrite K1 in B2. destruct kt.
      * injection B2 as <- <-. right. cbn [fst]. set (os2 := set_nth src _ os1) in *.
        assert (L4 : hpot os2 (Hop src c pre dst (Ann [] false [] act T false) wire m lf runs true) < hpot os (Hop src c pre dst (Ann [] false [] act T false) wire m lf runs true)).
        { unfold hpot. cbn [hp_ann hp_src hp_cons hp_dst hp_wire hp_left hp_runs an_over an_tasks]. unfold os2.
          rewrite (qlen_at os1 src _ c) by (unfold os1; rewrite set_nth_length; auto). rewrite (tokn_at os1 src _ c) by (unfold os1; rewrite set_nth_length; auto).
          rewrite (qlen_is _ _ _ _ Ho), (tokn_is _ _ _ _ Ho), K. cbn [owith_cons os_cons]. rewrite (get_set_at _ _ _ _ K1). cbn. lia. }
        pose proof (hsum_move _ _ _ _ _ _ Cm3 Hh L4) as Z. pose proof (lsum_calmer _ _ (sp_links s) Cm3) as L3. unfold pot, with_hop, knowing. cbn [sp_origins sp_links sp_hops knowing an_queue an_gone an_closed an_active an_tasks an_over]. fold os. lia.
      * (* nothing to wait for: [next] is dropped *)
        assert (E2 : exists o3 x3, (x2 = OWaits \/ x2 = ODone) /\ ostep o2 (OCancel c) = (o3, x3) /\ set_nth src o3 (set_nth src o2 os1) = os).
        { assert (Eo : owith_cons o1 (set_nth c (Some (OCons pre [] false false kl)) (os_cons o1)) = o).
          { unfold o1. cbn [owith_cons os_cons os_active os_vec os_copies os_prods os_tasks os_closed]. rewrite set_set. unfold get in K. destruct (nth_error (os_cons o) c) as [[k|]|] eqn:E; try discriminate.
            injection K as ->. rewrite (set_same _ _ _ E). destruct o; reflexivity. }
          destruct (kl && os_alive o1); injection B2 as <- <-.
          - eexists _, _. split; [auto|]. cbn [ostep]. rewrite K1. split; [reflexivity|]. unfold os1. rewrite !set_set. etransitivity; [|exact (set_same _ _ _ Ho)]. f_equal. exact Eo.
          - let t := match goal with |- context [owith_cons o1 ?t] => t end in replace (owith_cons o1 t) with o by (symmetry; exact Eo). eexists _, _. split; [auto|]. cbn [ostep]. rewrite K. split; [reflexivity|]. unfold os1. rewrite !set_set. apply set_same. auto. }
        destruct E2 as (o3 & x3 & X2 & B3 & E3). assert (H2 : nth_error (set_nth src o2 os1) src = Some o2) by (apply nth_error_set_eq; unfold os1; rewrite set_nth_length; auto).
        rewrite (on_some _ _ _ _ _ _ H2 B3). rewrite E3. clear E3 B3 H2 B2 Cm2 Lm2 Cm3.
        destruct (nstep (Ann [] false C0 act T false) (NTurn APending j ks)) as [a' y] eqn:Bn. cbn [nstep an_over an_queue an_gone] in Bn.
        assert (D : (exists ms, y = NSent ms) \/ (forall A (u : list Message.announce -> A) v, match y with NSent ms => u ms | _ => v end = v)).
        { destruct y; eauto. }
        destruct D as [(ms & ->)|D].
        -- right. cbn [an_tasks] in Bn. destruct (nth_error T j) as [[suf b]|] eqn:Hj; [|destruct (existsb _ _); discriminate].
           destruct (closed_task _ _); [|destruct (existsb _ _); discriminate]. injection Bn as <- <-.
           assert (L4 : hpot os (Hop src c pre dst (Ann [] false [] (set_del suf act) (remove_nth j T) false) (wire ++ [Ended suf]) m lf runs true) < hpot os (Hop src c pre dst (Ann [] false [] act T false) wire m lf runs true)).
           { unfold hpot. cbn [hp_ann hp_src hp_cons hp_dst hp_wire hp_left hp_runs an_over an_tasks]. rewrite map_app, list_sum_app. cbn [map mcost]. rewrite sum_cons.
             destruct (remove_nth_split _ _ _ Hj) as (l1 & l2 & -> & ->). rewrite !app_length. cbn [length]. change (list_sum []) with 0. lia. }
           pose proof (hsum_move _ _ _ _ _ _ (calmer_refl os) Hh L4) as Q. destruct X2 as [->| ->]; unfold pot, with_hop, knowing; cbn [fst sp_origins sp_links sp_hops knowing an_queue an_gone an_closed an_active an_tasks an_over]; fold os; lia.
        -- left. assert (E : with_hop s h os (Hop src c pre dst (Ann [] false [] act T false) wire m lf runs true) = s) by exact (hop_same _ _ _ Hh).
           destruct X2 as [->| ->]; rewrite D; exact E.
    + injection B as <- <-. right. cbn [nstep fst an_queue an_gone an_closed an_active an_tasks an_over app]. set (os' := set_nth src _ os) in *.
      assert (L4 : hpot os' (Hop src c pre dst (Ann [] false [] (set_add suf act) (T ++ [(suf, b)]) false) (wire ++ [Active suf]) m lf runs true) < hpot os (Hop src c pre dst (Ann [] false [] act T false) wire m lf runs true)).
      { unfold hpot. cbn [hp_ann hp_src hp_cons hp_dst hp_wire hp_left hp_runs an_over an_tasks]. rewrite map_app, list_sum_app. cbn [map mcost]. rewrite sum_cons.
        change (list_sum []) with 0. rewrite app_length. cbn [length]. unfold os'. rewrite (qlen_at _ _ _ _ Lo), (tokn_at _ _ _ _ Lo), (qlen_is _ _ _ _ Ho), (tokn_is _ _ _ _ Ho), K.
        cbn [owith_cons os_cons]. rewrite (get_set_at _ _ _ _ K). cbn. destruct kt; lia. }
      pose proof (hsum_move _ _ _ _ _ _ Cm Hh L4) as Z. pose proof (lsum_calmer _ _ (sp_links s) Cm) as L3. unfold pot, with_hop, knowing. cbn [sp_origins sp_links sp_hops knowing an_queue an_gone an_closed an_active an_tasks an_over]. fold os. lia.
  - right. fold os. destruct (on_origin src (OCDrop c) os) as [os' ev] eqn:B. destruct (mild_on _ _ _ _ _ B I) as (Cm & Lm). cbn [nstep fst an_over].
    assert (L4 : hpot os' (Hop src c pre dst (Ann [] false [] [] [] true) wire m lf runs false) < hpot os (Hop src c pre dst (Ann [] false [] act T false) wire m lf runs false)).
    { unfold hpot. cbn [hp_ann hp_src hp_cons hp_dst hp_wire hp_left hp_runs an_over an_tasks]. lia. }
    pose proof (hsum_move _ _ _ _ _ _ Cm Hh L4) as Z. pose proof (lsum_calmer _ _ (sp_links s) Cm) as L3. unfold pot, with_hop, knowing. cbn [sp_origins sp_links sp_hops knowing an_queue an_gone an_closed an_active an_tasks an_over]. fold os. lia.
Qed.

(** ** The receiving loop *)
Definition base (os : list osys) : nat := osum os + lsum os (sp_links s) + hsum os (sp_hops s).
Definition light (r r' : osys) : Prop := os_cons r' = os_cons r /\ length (os_vec r') <= length (os_vec r) /\ os_tasks r' = os_tasks r.
Lemma light_refl r : light r r.
Proof. repeat split; auto. Qed.
Lemma light_trans a b c : light a b -> light b c -> light a c.
Proof. intros (A & B & C) (D & E & F). split; [congruence|]. split; [lia|congruence]. Qed.
Lemma light_with c r : light r (with_closed c r).
Proof. repeat split; auto. Qed.
Lemma light_drop r n : light r (fst (ostep r (ODrop n))).
Proof. cbn. destruct (get (os_prods r) n); repeat split; auto. Qed.
Lemma light_leave l o bs e : light o (rv_origin (leave l o bs e)).
Proof. cbn [leave rv_origin]. eapply light_trans; [|apply light_drop]. rewrite drop_map_with. apply light_with. Qed.
Lemma light_end b o : light o (oend b o).
Proof. rewrite oend_with. apply light_with. Qed.
Lemma light_base os1 n r r' : nth_error os1 n = Some r -> light r r' -> base (set_nth n r' os1) <= base os1.
Proof.
  intros H (A & B & D). assert (Cm : calmer os1 (set_nth n r' os1)) by (eapply calmer_set; eauto; intros c; rewrite A; lia).
  unfold base. pose proof (lsum_calmer _ _ (sp_links s) Cm). pose proof (hsum_calmer _ _ (sp_hops s) Cm). pose proof (sum_set opot n r' r os1 H).
  assert (opot r' <= opot r) by (unfold opot; rewrite D; lia). unfold osum. lia.
Qed.
Lemma light_less os1 n r r' : nth_error os1 n = Some r -> light r r' -> length (os_vec r') < length (os_vec r) -> base (set_nth n r' os1) < base os1.
Proof.
  intros H (A & _ & D) B. assert (Cm : calmer os1 (set_nth n r' os1)) by (eapply calmer_set; eauto; intros c; rewrite A; lia).
  unfold base. pose proof (lsum_calmer _ _ (sp_links s) Cm). pose proof (hsum_calmer _ _ (sp_hops s) Cm). pose proof (sum_set opot n r' r os1 H).
  assert (opot r' < opot r) by (unfold opot; rewrite D; lia). unfold osum. lia.
Qed.

Lemma everywhere_same : everywhere (sp_closed s) s = s.
Proof.
  unfold everywhere. transitivity (Spread (sp_origins s) (sp_links s) (sp_hops s) (sp_mine s)); [|exact (origins_same s)]. f_equal.
  - rewrite <- (map_id (sp_origins s)) at 2. apply map_ext_in. intros o I. apply In_nth_error in I as (n & I).
    rewrite <- (nd_closed _ _ _ (n_node _ _ _ _ _ _ _ N _ _ I)). apply with_same.
  - rewrite <- (map_id (sp_hops s)) at 2. apply map_ext_in. intros p I. apply with_runs_id. exact (ho_runs _ _ _ _ _ (n_hops _ _ _ _ _ _ _ N _ I)).
Qed.

Lemma receive_same h p op r x : nth_error (sp_hops s) h = Some p -> nth_error os (hp_dst p) = Some r ->
  rstep (the_loop p r) op = (the_loop p r, x) -> fst (receive s h p op) = s.
Proof.
  intros Hh Hr B. unfold receive. fold os. rewrite Hr. change (RSys r (hp_map p) (hp_left p) (hp_runs p) (hp_open p)) with (the_loop p r). rewrite B. unfold the_loop. cbn [fst rv_origin rv_map rv_over rv_bcasts rv_session].
  rewrite (set_same _ _ _ Hr). replace (Hop _ _ _ _ _ _ _ _ _ _) with p by (destruct p; reflexivity). unfold os. rewrite (hop_same _ _ _ Hh).
  rewrite (nd_closed _ _ _ (n_node _ _ _ _ _ _ _ N _ _ Hr)). apply everywhere_same.
Qed.

Lemma receive_less h p0 p op r rs x d : nth_error (sp_hops s) h = Some p0 -> nth_error os (hp_dst p) = Some r ->
  rstep (the_loop p r) op = (rs, x) -> base (set_nth (hp_dst p) (rv_origin rs) os) <= pot s + d ->
  hp_src p0 = hp_src p -> hp_cons p0 = hp_cons p -> hp_dst p0 = hp_dst p -> hp_ann p0 = hp_ann p ->
  list_sum (map (mcost (W (hp_dst p))) (hp_wire p)) + match rv_over rs with None => 1 | Some _ => 0 end + length (filter snd (rv_bcasts rs)) + d <
  list_sum (map (mcost (W (hp_dst p))) (hp_wire p0)) + match hp_left p0 with None => 1 | Some _ => 0 end + length (filter snd (hp_runs p0)) ->
  pot (fst (receive s h p op)) < pot s.
Proof.
  intros Hh Hr B L E1 E2 E3 E4 Lt. unfold receive. fold os. rewrite Hr. change (RSys r (hp_map p) (hp_left p) (hp_runs p) (hp_open p)) with (the_loop p r). rewrite B. cbn [fst].
  rewrite pot_everywhere. set (os' := set_nth (hp_dst p) (rv_origin rs) os) in *.
  pose proof (pot_hop s h os' p0 (Hop (hp_src p) (hp_cons p) (hp_pre p) (hp_dst p) (hp_ann p) (hp_wire p) (rv_map rs) (rv_over rs) (rv_bcasts rs) (rv_session rs)) Hh) as E.
  unfold base in L. unfold hpot in E. cbn [hp_ann hp_src hp_cons hp_dst hp_wire hp_left hp_runs] in E. rewrite E1, E2, E3, E4 in E. lia.
Qed.

Lemma dst_is h p : nth_error (sp_hops s) h = Some p -> exists r, nth_error os (hp_dst p) = Some r /\ node (sp_closed s) (P (hp_dst p)) r /\
  (hp_left p = None -> get (os_prods r) 0 = Some tt).
Proof.
  intros H. destruct (ho_dst _ _ _ _ _ (n_hops _ _ _ _ _ _ _ N _ (nth_error_In _ _ H))) as (r & Hr & K). exists r. split; [exact Hr|]. split; [exact (n_node _ _ _ _ _ _ _ N _ _ Hr)|].
  intros L. apply K. exact L.
Qed.
Lemma pot_base : pot s = base os.
Proof. reflexivity. Qed.

Lemma read_pot h : fst (spstep s (SRead h)) = s \/ pot (fst (spstep s (SRead h))) < pot s.
Proof.
  cbn [spstep]. destruct (nth_error (sp_hops s) h) as [[src c pre dst a wire m lf runs open]|] eqn:Hh; [|left; reflexivity].
  destruct wire as [|msg wire]; [left; reflexivity|]. destruct lf; [left; reflexivity|]. right.
  set (p := Hop src c pre dst a wire m None runs open).
  assert (L : pot (fst (receive s h p (RMsg msg))) < pot s); [|destruct (receive s h p (RMsg msg)); exact L].
  destruct (dst_is _ _ Hh) as (r & Hr & Nd & Pr). cbn in Hr, Nd, Pr. specialize (Pr eq_refl).
  destruct (rstep (the_loop p r) (RMsg msg)) as [rs x] eqn:B. pose proof B as B0. unfold the_loop in B. cbn [p hp_map hp_left hp_runs hp_open rstep rv_over rv_origin rv_map rv_bcasts rv_session] in B.
  assert (X : forall d, base (set_nth dst (rv_origin rs) os) <= pot s + d ->
     match rv_over rs with None => 1 | Some _ => 0 end + length (filter snd (rv_bcasts rs)) + d < mcost (W dst) msg + 1 + length (filter snd runs) -> pot (fst (receive s h p (RMsg msg))) < pot s).
  { intros d L1 L2. apply (receive_less h _ p (RMsg msg) r rs x d Hh Hr B0 L1); try reflexivity.
    cbn [p hp_dst hp_wire hp_left hp_runs map]. rewrite sum_cons. lia. }
  assert (Ld : dst < length os) by (apply nth_error_Some; congruence).
  destruct msg as [path|path].
  - set (b := length (os_closed r)) in *. set (o1 := fst (ostep r ONew)) in *. cbn zeta in B.
    assert (E1 : o1 = with_closed (os_closed r ++ [false]) r) by reflexivity.
    destruct (ostep o1 (OPublish 0 path b)) as [o2 y] eqn:B2.
    assert (L1 : base (set_nth dst o2 os) <= pot s + W dst).
    { assert (H1 : nth_error (set_nth dst o1 os) dst = Some o1) by (apply nth_error_set_eq; auto).
      assert (Wo : owf o1) by (rewrite E1; apply owf_closed, (nd_owf _ _ _ Nd)).
      pose proof (publish_pot _ (sp_links s) (sp_hops s) _ _ _ _ _ _ _ H1 Wo B2) as L. cbv zeta in L. rewrite set_set in L.
      pose proof (light_base os dst r o1 Hr) as L2. specialize (HW dst). unfold LS, HS in HW. rewrite pot_base.
      assert (light r o1) by (rewrite E1; apply light_with). specialize (L2 H). unfold base in *. lia. }
    destruct y as [| | |[|]| | | | | | | | | |]; injection B as <- <-;
      try (apply (X (W dst)); [cbn [rv_origin leave]|cbn [leave rv_over rv_bcasts mcost]; rewrite filter_app, app_length; cbn; lia];
           first [exact L1|
            etransitivity; [|exact L1]; replace (set_nth dst ?u os) with (set_nth dst u (set_nth dst o2 os)) by apply set_set]).
    all: apply (X (W dst)); [|cbn [leave rv_over rv_bcasts mcost]; rewrite filter_app, app_length; cbn; lia].
    all: first [exact L1 | etransitivity; [|exact L1]; rewrite <- (set_set dst _ o2 os); apply (light_base _ dst o2); [apply nth_error_set_eq; auto|]; eapply light_trans; [apply (light_end b)|apply light_leave]].
  - destruct (lookup path m) as [b|]; injection B as <- <-; apply (X 0); cbn [leave rv_over rv_bcasts mcost]; try lia.
    + rewrite Nat.add_0_r, pot_base. apply (light_base _ _ r); auto. apply light_end.
    + rewrite Nat.add_0_r, pot_base. apply (light_base _ _ r); auto. apply light_leave.
Qed.

Lemma leave_pot h : fst (spstep s (SLeave h)) = s \/ pot (fst (spstep s (SLeave h))) < pot s.
Proof.
  cbn [spstep]. destruct (nth_error (sp_hops s) h) as [p|] eqn:Hh; [|left; reflexivity]. destruct (hp_open p); [left; reflexivity|].
  assert (L : fst (receive s h p (REnd (Some WebTransport))) = s \/ pot (fst (receive s h p (REnd (Some WebTransport)))) < pot s); [|destruct (receive s h p (REnd (Some WebTransport))); exact L].
  destruct (dst_is _ _ Hh) as (r & Hr & Nd & Pr). destruct (hp_left p) as [e|] eqn:Lf.
  - left. eapply receive_same; eauto. unfold the_loop. cbn [rstep rv_over]. rewrite Lf. reflexivity.
  - right. destruct (rstep (the_loop p r) (REnd (Some WebTransport))) as [rs x] eqn:B. pose proof B as B0. unfold the_loop in B. cbn [rstep rv_over rv_origin rv_bcasts] in B. rewrite Lf in B. injection B as <- <-.
    apply (receive_less h p p _ r _ _ 0 Hh Hr B0); try reflexivity.
    + rewrite Nat.add_0_r, pot_base. apply (light_base _ _ r); auto. apply light_leave.
    + cbn [leave rv_over rv_bcasts]. rewrite Lf. lia.
Qed.

Lemma idle_pot h : fst (spstep s (SIdle h)) = s \/ pot (fst (spstep s (SIdle h))) < pot s.
Proof.
  cbn [spstep]. destruct (nth_error (sp_hops s) h) as [p|] eqn:Hh; [|left; reflexivity].
  assert (L : fst (receive s h p RUnused) = s \/ pot (fst (receive s h p RUnused)) < pot s); [|destruct (receive s h p RUnused); exact L].
  destruct (dst_is _ _ Hh) as (r & Hr & Nd & Pr). destruct (hp_left p) as [e|] eqn:Lf.
  - left. eapply receive_same; eauto. unfold the_loop. cbn [rstep rv_over]. rewrite Lf. reflexivity.
  - specialize (Pr eq_refl). destruct (rstep (the_loop p r) RUnused) as [rs x] eqn:B. pose proof B as B0. unfold the_loop in B. cbn [rstep rv_over rv_origin ostep] in B. rewrite Lf, Pr in B.
    destruct (pop_closed_suffix (os_cons r) (rev (os_vec r))) as (d & E & _).
    set (vec := rev (pop_closed (os_cons r) (rev (os_vec r)))) in *.
    assert (Ev : os_vec r = vec ++ rev d) by (unfold vec; rewrite <- rev_app_distr, <- E, rev_involutive; reflexivity).
    set (r1 := OSys (os_active r) vec (os_cons r) (os_copies r) (os_prods r) (os_tasks r) (os_closed r)) in *.
    assert (Lr : light r r1) by (repeat split; cbn; rewrite Ev, app_length; lia).
    destruct vec as [|v vec'] eqn:Hv.
    + right. injection B as <- <-. apply (receive_less h p p _ r _ _ 0 Hh Hr B0); try reflexivity.
      * rewrite Nat.add_0_r, pot_base. apply (light_base _ _ r); auto. eapply light_trans; [exact Lr|]. apply light_leave.
      * cbn [leave rv_over rv_bcasts]. rewrite Lf. lia.
    + injection B as <- <-. cbn [rv_map rv_bcasts rv_session] in B0. destruct d as [|e d].
      * left. eapply receive_same; eauto. rewrite B0. f_equal. unfold the_loop. rewrite Lf. f_equal. unfold r1. cbn [rev] in Ev. rewrite app_nil_r in Ev. rewrite <- Ev. destruct r; reflexivity.
      * right. assert (Lt : base (set_nth (hp_dst p) r1 os) < pot s).
        { rewrite pot_base. apply (light_less _ _ r); auto. cbn [r1 os_vec]. rewrite Ev, app_length. cbn [rev]. rewrite app_length. cbn. lia. }
        unfold receive. fold os. rewrite Hr. change (RSys r (hp_map p) (hp_left p) (hp_runs p) (hp_open p)) with (the_loop p r). rewrite B0. cbn [fst rv_origin rv_map rv_over rv_bcasts rv_session].
        rewrite pot_everywhere. set (os' := set_nth (hp_dst p) r1 os) in *.
        pose proof (pot_hop s h os' p (Hop (hp_src p) (hp_cons p) (hp_pre p) (hp_dst p) (hp_ann p) (hp_wire p) (hp_map p) None (hp_runs p) (hp_open p)) Hh) as Q.
        unfold base in Lt. unfold hpot in Q. cbn [hp_ann hp_src hp_cons hp_dst hp_wire hp_left hp_runs] in Q. rewrite Lf in Q. lia.
Qed.

Lemma runs_set b path : forall runs : list (bytes * bool), nth_error runs b = Some (path, true) ->
  S (length (filter snd (set_nth b (path, false) runs))) = length (filter snd runs).
Proof.
  induction b as [|b IH]; intros [|[q t] runs] H; try discriminate.
  - injection H as -> ->. reflexivity.
  - change (set_nth (S b) (path, false) ((q, t) :: runs)) with ((q, t) :: set_nth b (path, false) runs). cbn in H. specialize (IH _ H). cbn [filter snd]. destruct t; cbn [length]; lia.
Qed.

Lemma gone_pot h b : fst (spstep s (SGone h b)) = s \/ pot (fst (spstep s (SGone h b))) < pot s.
Proof.
  cbn [spstep]. destruct (nth_error (sp_hops s) h) as [p|] eqn:Hh; [|left; reflexivity].
  assert (L : fst (receive s h p (RRun b)) = s \/ pot (fst (receive s h p (RRun b))) < pot s); [|destruct (receive s h p (RRun b)); exact L].
  destruct (dst_is _ _ Hh) as (r & Hr & Nd & Pr).
  destruct (rstep (the_loop p r) (RRun b)) as [rs x] eqn:B. pose proof B as B0. unfold the_loop in B. cbn [rstep rv_over rv_origin rv_session rv_bcasts rv_map] in B.
  destruct (hp_open p) eqn:Op.
  - left. eapply receive_same; eauto. rewrite B0. injection B as <- <-. unfold the_loop. rewrite Op. reflexivity.
  - destruct (nth_error (hp_runs p) b) as [[path []]|] eqn:Hb.
    + right. injection B as <- <-. apply (receive_less h p p _ r _ _ 0 Hh Hr B0); try reflexivity.
      * rewrite Nat.add_0_r, pot_base. apply (light_base _ _ r); auto. cbn [rv_origin]. destruct (lookup path (hp_map p)); [destruct (Nat.eqb b n); [apply light_refl|]|]; apply light_end.
      * cbn [rv_over rv_bcasts]. pose proof (runs_set _ _ _ Hb). lia.
    + left. eapply receive_same; eauto. rewrite B0. injection B as <- <-. unfold the_loop. rewrite Op. reflexivity.
    + left. eapply receive_same; eauto. rewrite B0. injection B as <- <-. unfold the_loop. rewrite Op. reflexivity.
Qed.

Lemma internal_pot op : internal op -> fst (spstep s op) = s \/ pot (fst (spstep s op)) < pot s.
Proof.
  destruct op; try contradiction; intros _; [apply clean_pot|apply step_pot|apply turn_pot|apply read_pot|apply leave_pot|apply idle_pot|apply gone_pot].
Qed.
End Step.
End Pot.
