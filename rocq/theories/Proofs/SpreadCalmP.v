(** A network without circles comes to rest. *)
From Coq Require Import NArith ZArith List Lia Bool Permutation.
From Coq Require Import Init.Byte Strings.Byte.
From Coq Require Import ZifyBool ZifyNat ZifyN.
From Verif.Model Require Import OriginSys Base Coding Message ErrorCode Stream Frame FrameSys Map Publisher ReceiverSys Spread.
From Verif.Spec Require Import OriginSpec SpreadSpec RestSpec.
From Verif.Proofs Require Import TableP MapP BroadcastP OriginP OriginTop RelaySysP ReceiverP SpreadP SpreadFrameP SpreadTurnP SpreadRecvP SpreadNetP SpreadStepP SpreadInvP SpreadRunP SpreadAllP SpreadTraceP SpreadChainP SpreadShutP SpreadTopP SpreadApartP SpreadRestP.
Import ListNotations.
Open Scope nat_scope.

(** * Enough weight for every origin *)
Section Weight.
  Context (L : list (nat * nat * bytes * nat * bytes)) (H : list (nat * nat * bytes * nat)) (R : nat -> nat).
  Context (UpL : forall a c pre b add, In (a, c, pre, b, add) L -> R a < R b) (UpH : forall a c pre b, In (a, c, pre, b) H -> R a < R b).

  Fixpoint Wf (f n : nat) : nat := match f with 0 => 1 | S f => 1 + cost (Wf f) L H n end.
  Lemma cost_le W W' n : (forall a c pre b add, In (a, c, pre, b, add) L -> a = n -> W b <= W' b) -> (forall a c pre b, In (a, c, pre, b) H -> a = n -> W b <= W' b) ->
    cost W L H n <= cost W' L H n.
  Proof.
    intros A B. unfold cost. apply Nat.add_le_mono; apply sum_le.
    - intros [[[[a c] pre] b] add] I. cbn. destruct (Nat.eqb_spec a n); [|lia]. specialize (A _ _ _ _ _ I e). lia.
    - intros [[[a c] pre] b] I. cbn. destruct (Nat.eqb_spec a n); [|lia]. specialize (B _ _ _ _ I e). lia.
  Qed.
  Lemma Wf_up f n : Wf f n <= Wf (S f) n.
  Proof. revert n. induction f as [|f IH]; intros n; cbn [Wf]; [lia|]. pose proof (cost_le (Wf f) (Wf (S f)) n (fun _ _ _ b _ _ _ => IH b) (fun _ _ _ b _ _ => IH b)). cbn [Wf] in *. lia. Qed.
  Lemma Wf_mono f g n : f <= g -> Wf f n <= Wf g n.
  Proof. induction 1 as [|g _ IH]; auto. pose proof (Wf_up g n). lia. Qed.

  Lemma weight : exists W, forall n, 1 + cost W L H n <= W n.
  Proof.
    set (M := fold_right Nat.max 0 (map R (map (fun l => let '(_, _, _, b, _) := l in b) L ++ map (fun p => let '(_, _, _, b) := p in b) H))).
    assert (MM : forall x l, In x l -> x <= fold_right Nat.max 0 l).
    { intros x l. induction l as [|y l IH]; intros []; subst; cbn; [lia|]. specialize (IH H0). lia. }
    assert (ML : forall a c pre b add, In (a, c, pre, b, add) L -> R b <= M).
    { intros a c pre b add I. apply MM. apply in_map. apply in_or_app. left. apply (in_map (fun l : nat * nat * bytes * nat * bytes => let '(_, _, _, b, _) := l in b)) in I. exact I. }
    assert (MH : forall a c pre b, In (a, c, pre, b) H -> R b <= M).
    { intros a c pre b I. apply MM. apply in_map. apply in_or_app. right. apply (in_map (fun l : nat * nat * bytes * nat => let '(_, _, _, b) := l in b)) in I. exact I. }
    clearbody M. exists (fun n => Wf (M - R n) n). intros n. destruct (M - R n) as [|f] eqn:E.
    - cbn [Wf]. pose proof (cost_le (fun n => Wf (M - R n) n) (fun _ => 0) n) as K. 
      assert (Z : cost (fun _ => 0) L H n = 0 -> 1 + cost (fun n0 : nat => Wf (M - R n0) n0) L H n <= 1).
      { intros Z. enough (cost (fun n0 : nat => Wf (M - R n0) n0) L H n <= 0) by lia. rewrite <- Z. apply K.
        - intros a c pre b add I ->. specialize (UpL _ _ _ _ _ I). specialize (ML _ _ _ _ _ I). lia.
        - intros a c pre b I ->. specialize (UpH _ _ _ _ I). specialize (MH _ _ _ _ I). lia. }
      apply Z. clear Z K. unfold cost.
      assert (Z1 : forall l, incl l L -> list_sum (map (lcost (fun _ => 0) n) l) = 0).
      { induction l as [|[[[[a c] pre] b] add] l IH]; intros I; [reflexivity|]. cbn [map]. rewrite sum_cons, IH by (intros z J; apply I; right; auto).
        cbn. destruct (Nat.eqb_spec a n) as [->|]; auto. exfalso. assert (I0 : In (n, c, pre, b, add) L) by (apply I; left; auto). specialize (UpL _ _ _ _ _ I0). specialize (ML _ _ _ _ _ I0). lia. }
      assert (Z2 : forall l, incl l H -> list_sum (map (hcost (fun _ => 0) n) l) = 0).
      { induction l as [|[[[a c] pre] b] l IH]; intros I; [reflexivity|]. cbn [map]. rewrite sum_cons, IH by (intros z J; apply I; right; auto).
        cbn. destruct (Nat.eqb_spec a n) as [->|]; auto. exfalso. assert (I0 : In (n, c, pre, b) H) by (apply I; left; auto). specialize (UpH _ _ _ _ I0). specialize (MH _ _ _ _ I0). lia. }
      rewrite Z1, Z2 by (intros z J; exact J). reflexivity.
    - cbn [Wf]. apply le_n_S. apply (cost_le _ (Wf f)).
      + intros a c pre b add I ->. apply Wf_mono. specialize (UpL _ _ _ _ _ I). specialize (ML _ _ _ _ _ I). lia.
      + intros a c pre b I ->. apply Wf_mono. specialize (UpH _ _ _ _ I). specialize (MH _ _ _ _ I). lia.
  Qed.
End Weight.

Lemma hop_ok_made ops s tr : sprun spread_new ops = (s, tr) -> forall a pre ks b add x h, In (SHop a pre ks b add, x) tr -> so_made x = Some h -> so_ok x = true.
Proof.
  revert ops s tr. apply (run_ind (fun s tr => forall a pre ks b add x h, In (SHop a pre ks b add, x) tr -> so_made x = Some h -> so_ok x = true)); [intros a pre ks b add x h []|].
  intros ops s tr op s' x R IH S a pre ks b add y h I M. apply in_snoc in I as [I|I]; [eapply IH; eauto|].
  injection I as -> ->. destruct (hop_result s _ _ _ S _ _ _ _ _ eq_refl) as [(E & _)|(_ & E)]; [exact E|congruence].
Qed.

Lemma find_hop (H : list (nat * nat * bytes * nat)) n : NoDup (map snd H) -> forall a c pre, In (a, c, pre, n) H -> find (fun p => Nat.eqb (snd p) n) H = Some (a, c, pre, n).
Proof.
  induction H as [|[q m] H IH]; intros Nd a c pre []; cbn; inversion Nd; subst.
  - injection H0 as -> ->. rewrite Nat.eqb_refl. reflexivity.
  - destruct (Nat.eqb_spec m n) as [->|]; [|eauto]. exfalso. apply H3. apply (in_map snd) in H0. exact H0.
Qed.

Lemma weighs ops s tr : sprun spread_new ops = (s, tr) -> ordered tr -> exists W, forall n, 1 + cost W (LS s) (HS s) n <= W n.
Proof.
  intros Run (rank & Up). pose proof (net_run _ _ _ Run) as N. pose proof (told_run _ _ _ Run) as T.
  set (R := fun n => match find (fun p => Nat.eqb (snd p) n) (HS s) with Some (a, _, _, _) => 2 * rank a + 1 | None => 2 * rank n end).
  assert (Ow : forall n, mine_of s n -> R n = 2 * rank n).
  { intros n M. apply mine_of_iff in M as (_ & M). unfold R. destruct (find _ (HS s)) as [[[[a c] pre] m]|] eqn:F; auto. apply find_some in F as (I & E). cbn in E. apply Nat.eqb_eq in E. subst m. destruct (M _ _ _ I). }
  assert (Dn : NoDup (map snd (HS s))).
  { unfold HS. rewrite map_map. exact (n_hdst _ _ _ _ _ _ _ N). }
  assert (Ho : forall a c pre r, In (a, c, pre, r) (HS s) -> R r = 2 * rank a + 1 /\ R a = 2 * rank a).
  { intros a c pre r I. split; [unfold R; rewrite (find_hop _ _ Dn _ _ _ I); reflexivity|]. apply Ow. apply in_map_iff in I as (p & E & I). injection E as <- _ _ _. exact (n_hsrc _ _ _ _ _ _ _ N _ I). }
  apply (weight _ _ R).
  - intros a c pre b add I. assert (Mb : mine_of s b).
    { pose proof I as I0. apply in_map_iff in I0 as (l & E & I0). injection E as _ _ _ <- _. exact (n_ldst _ _ _ _ _ _ _ N _ I0). }
    rewrite (Ow b Mb). destruct (t_link _ _ T _ _ _ _ _ I) as [(ks & x & J & O & Ma)|(h & a0 & c0 & ks & x & Hh & J & O)].
    + rewrite (Ow a Ma). assert (rank a < rank b) by (eapply Up; eauto). lia.
    + destruct (Ho _ _ _ _ (nth_error_In _ _ Hh)) as (-> & _). assert (rank a0 < rank b) by (eapply Up; [right; exact J|eapply hop_ok_made; eauto]). lia.
  - intros a c pre b I. destruct (Ho _ _ _ _ I) as (-> & ->). lia.
Qed.

(** * Working *)
Section Work.
  Context (W : nat -> nat) (L : list (nat * nat * bytes * nat * bytes)) (H : list (nat * nat * bytes * nat)) (HW : forall n, 1 + cost W L H n <= W n).
  Definition weighed (s : spread) : Prop := (exists P G, net_s s P G) /\ LS s = L /\ HS s = H.
  Lemma weighed_step s op : weighed s -> internal op -> weighed (fst (spstep s op)) /\ (fst (spstep s op) = s \/ pot W (fst (spstep s op)) < pot W s).
  Proof.
    intros ((P & G & N) & EL & EH) I. split; [|eapply internal_pot; eauto; rewrite EL, EH; exact HW].
    destruct (spstep s op) as [s' x] eqn:B. cbn [fst]. split; [eexists _, _; eapply net_step; eauto|].
    destruct (step_stats _ _ _ _ _ _ N B) as (E1 & E2 & _). unfold LS, HS in *. rewrite E1, E2, EL, EH. destruct op; try contradiction; cbn; rewrite !app_nil_r; auto.
  Qed.
  Lemma works_pot s n : works s n -> weighed s -> n <= pot W s.
  Proof.
    induction 1 as [s|s o n I Ne _ IH]; intros We; [lia|]. destruct (weighed_step s o We I) as (We' & [E|Lt]); [contradiction|]. specialize (IH We'). lia.
  Qed.
End Work.

Lemma works_bound ops s tr : sprun spread_new ops = (s, tr) -> ordered tr -> exists B, forall n, works s n -> n <= B.
Proof.
  intros Run O. destruct (weighs _ _ _ Run O) as (W & HW). exists (pot W s). intros n K. apply (works_pot W (LS s) (HS s) HW); auto.
  split; [|auto]. eexists _, _. eapply net_run; eauto.
Qed.

(** * Resting *)
(** What there is to try. *)
Definition tries (s : spread) : list spop :=
  flat_map (fun n => map (SClean n) (seq 0 (match nth_error (sp_origins s) n with Some o => length (os_tasks o) | None => 0 end))) (seq 0 (length (sp_origins s))) ++
  map SStep (seq 0 (length (sp_links s))) ++
  flat_map (fun h => SRead h :: SLeave h :: SIdle h ::
     match nth_error (sp_hops s) h with
     | Some p => map (fun j => STurn h j []) (seq 0 (S (length (an_tasks (hp_ann p))))) ++ map (SGone h) (seq 0 (length (hp_runs p)))
     | None => []
     end) (seq 0 (length (sp_hops s))).
Lemma tries_internal s op : In op (tries s) -> internal op.
Proof.
  unfold tries. rewrite !in_app_iff, !in_flat_map. intros [(n & _ & I)|[I|(h & _ & I)]].
  - apply in_map_iff in I as (k & <- & _). exact Logic.I.
  - apply in_map_iff in I as (k & <- & _). exact Logic.I.
  - destruct I as [<-|[<-|[<-|I]]]; try exact Logic.I. destruct (nth_error (sp_hops s) h); [|destruct I].
    apply in_app_iff in I as [I|I]; apply in_map_iff in I as (k & <- & _); exact Logic.I.
Qed.

Lemma turn_like s P G h p j ks : net_s s P G -> nth_error (sp_hops s) h = Some p ->
  spstep s (STurn h j ks) = spstep s (STurn h (Nat.min j (length (an_tasks (hp_ann p)))) []).
Proof.
  intros N Hh. pose proof (ho_ann _ _ _ _ _ (n_hops _ _ _ _ _ _ _ N _ (nth_error_In _ _ Hh))) as (Eq & Eg & _).
  cbn [spstep]. rewrite Hh. destruct p as [src c pre dst a wire m lf runs open]. cbn in Eq, Eg. cbn [hp_ann]. destruct a as [aq ag ac act T ao]. cbn in Eq, Eg. subst aq ag. cbn [an_over an_tasks knowing].
  unfold knowing. cbn [an_queue an_gone an_active an_tasks an_over an_closed]. destruct ao; [reflexivity|].
  cbn [nstep an_over an_queue an_gone an_tasks an_closed an_active app fst].
  destruct (le_lt_dec (length T) j) as [Le|Lt]; [rewrite Nat.min_r by lia|rewrite Nat.min_l by lia; reflexivity].
  assert (E1 : nth_error T j = None) by (apply nth_error_None; lia). assert (E2 : nth_error T (length T) = None) by (apply nth_error_None; lia). rewrite E1, E2. reflexivity.
Qed.

Lemma tries_all s P G : net_s s P G -> (forall op, In op (tries s) -> fst (spstep s op) = s) -> at_rest s.
Proof.
  intros N A op I. destruct op; try contradiction.
  - (* SClean *) destruct (nth_error (sp_origins s) n) as [o|] eqn:H.
    + destruct (le_lt_dec (length (os_tasks o)) k) as [Le|Lt].
      * cbn [spstep]. unfold on_origin. rewrite H. cbn [ostep]. assert (E : get (os_tasks o) k = None) by (unfold get; assert (E : nth_error (os_tasks o) k = None) by (apply nth_error_None; lia); rewrite E; reflexivity).
        rewrite E. cbn [fst]. rewrite (set_same _ _ _ H). apply origins_same.
      * apply A. unfold tries. rewrite in_app_iff. left. apply in_flat_map. exists n. split; [apply in_seq; split; [lia|apply nth_error_Some; congruence]|].
        rewrite H. apply in_map. apply in_seq. lia.
    + cbn [spstep]. unfold on_origin. rewrite H. apply origins_same.
  - (* SStep *) destruct (nth_error (sp_links s) k) as [l|] eqn:H.
    + apply A. unfold tries. rewrite !in_app_iff. right. left. apply in_map. apply in_seq. split; [lia|apply nth_error_Some; congruence].
    + cbn [spstep]. rewrite H. reflexivity.
  - (* STurn *) destruct (nth_error (sp_hops s) h) as [p|] eqn:H; [|cbn [spstep]; rewrite H; reflexivity].
    rewrite (turn_like s P G h p j ks N H). apply A. unfold tries. rewrite !in_app_iff. right. right. apply in_flat_map. exists h. split; [apply in_seq; split; [lia|apply nth_error_Some; congruence]|].
    rewrite H. do 3 right. apply in_or_app. left. apply (in_map (fun j => STurn h j [])). apply in_seq. lia.
  - (* SRead *) destruct (nth_error (sp_hops s) h) as [p|] eqn:H; [|cbn [spstep]; rewrite H; reflexivity].
    apply A. unfold tries. rewrite !in_app_iff. right. right. apply in_flat_map. exists h. split; [apply in_seq; split; [lia|apply nth_error_Some; congruence]|]. left. reflexivity.
  - destruct (nth_error (sp_hops s) h) as [p|] eqn:H; [|cbn [spstep]; rewrite H; reflexivity].
    apply A. unfold tries. rewrite !in_app_iff. right. right. apply in_flat_map. exists h. split; [apply in_seq; split; [lia|apply nth_error_Some; congruence]|]. right. left. reflexivity.
  - destruct (nth_error (sp_hops s) h) as [p|] eqn:H; [|cbn [spstep]; rewrite H; reflexivity].
    apply A. unfold tries. rewrite !in_app_iff. right. right. apply in_flat_map. exists h. split; [apply in_seq; split; [lia|apply nth_error_Some; congruence]|]. do 2 right. left. reflexivity.
  - (* SGone *) destruct (nth_error (sp_hops s) h) as [p|] eqn:H; [|cbn [spstep]; rewrite H; reflexivity].
    destruct (le_lt_dec (length (hp_runs p)) b) as [Le|Lt].
    + destruct (dst_is s P G N h p H) as (r & Hr & _ & _). cbn [spstep]. rewrite H.
      assert (E : fst (receive s h p (RRun b)) = s); [|destruct (receive s h p (RRun b)); exact E].
      eapply (receive_same s P G N h p (RRun b) r _ H Hr). unfold the_loop. cbn [rstep rv_session rv_bcasts].
      assert (E : nth_error (hp_runs p) b = None) by (apply nth_error_None; lia). rewrite E. destruct (hp_open p); reflexivity.
    + apply A. unfold tries. rewrite !in_app_iff. right. right. apply in_flat_map. exists h. split; [apply in_seq; split; [lia|apply nth_error_Some; congruence]|].
      rewrite H. do 3 right. apply in_or_app. right. apply in_map. apply in_seq. lia.
Qed.

Lemma rests W L H : (forall n, 1 + cost W L H n <= W n) -> forall k s, pot W s <= k -> weighed L H s -> exists os, Forall internal os /\ at_rest (fst (sprun s os)).
Proof.
  intros HW. induction k as [|k IH]; intros s Le We.
  all: destruct (existsb (fun op => Nat.ltb (pot W (fst (spstep s op))) (pot W s)) (tries s)) eqn:E.
  - apply existsb_exists in E as (op & _ & E). apply Nat.ltb_lt in E. lia.
  - exists []. split; [constructor|]. cbn [sprun fst]. pose proof We as ((P & G & N) & _). apply (tries_all s P G N). intros op I.
    destruct (weighed_step W L H HW s op We (tries_internal _ _ I)) as (_ & [Q|Q]); auto. exfalso. apply Nat.ltb_lt in Q.
    assert (T : existsb (fun op => Nat.ltb (pot W (fst (spstep s op))) (pot W s)) (tries s) = true) by (apply existsb_exists; eauto). congruence.
  - apply existsb_exists in E as (op & I & E). apply Nat.ltb_lt in E. destruct (weighed_step W L H HW s op We (tries_internal _ _ I)) as (We' & _).
    destruct (IH (fst (spstep s op))) as (os & F & Rest); [lia|auto|]. exists (op :: os). split; [constructor; auto; apply (tries_internal _ _ I)|].
    cbn [sprun]. destruct (spstep s op) as [s1 x]. cbn [fst] in Rest. destruct (sprun s1 os). exact Rest.
  - exists []. split; [constructor|]. cbn [sprun fst]. pose proof We as ((P & G & N) & _). apply (tries_all s P G N). intros op I.
    destruct (weighed_step W L H HW s op We (tries_internal _ _ I)) as (_ & [Q|Q]); auto. exfalso. apply Nat.ltb_lt in Q.
    assert (T : existsb (fun op => Nat.ltb (pot W (fst (spstep s op))) (pot W s)) (tries s) = true) by (apply existsb_exists; eauto). congruence.
Qed.
Lemma comes_to_rest ops s tr : sprun spread_new ops = (s, tr) -> ordered tr -> exists os, Forall internal os /\ at_rest (fst (sprun s os)).
Proof.
  intros Run O. destruct (weighs _ _ _ Run O) as (W & HW). apply (rests W (LS s) (HS s) HW (pot W s) s); auto. split; [|auto]. eexists _, _. eapply net_run; eauto.
Qed.

(** * What is there then *)
Lemma flat_map_nil' {A B} (f : A -> list B) l : (forall x, In x l -> f x = []) -> flat_map f l = [].
Proof. induction l as [|x l IH]; intros H; cbn; auto. rewrite (H x) by (left; auto). apply IH. intros y I. apply H. right. auto. Qed.
Lemma sprun_app s a b : sprun s (a ++ b) = let (s1, t1) := sprun s a in let (s2, t2) := sprun s1 b in (s2, t1 ++ t2).
Proof.
  revert s. induction a as [|op a IH]; intros s; cbn; [destruct (sprun s b); reflexivity|].
  destruct (spstep s op) as [s1 x]. rewrite IH. destruct (sprun s1 a) as [s2 t]. destruct (sprun s2 b). reflexivity.
Qed.
Lemma sprun_ops s os : map fst (snd (sprun s os)) = os.
Proof. revert s. induction os as [|op os IH]; intros s; cbn; [reflexivity|]. destruct (spstep s op) as [s1 x]. specialize (IH s1). destruct (sprun s1 os). cbn in *. congruence. Qed.

Section Quiet.
  Context (tr ev : list spevent) (Q : forall op x, In (op, x) ev -> internal op).
  Lemma quiet_out op x : In (op, x) (tr ++ ev) -> ~ internal op -> In (op, x) tr.
  Proof. intros I Ni. apply in_app_or in I as [I|I]; auto. destruct (Ni (Q _ _ I)). Qed.
  Lemma quiet_into (e : spevent) : In e tr -> In e (tr ++ ev).
  Proof. intros I. apply in_or_app. auto. Qed.
  Lemma quiet_leads o a p b q : leads (tr ++ ev) o a p b q <-> leads tr o a p b q.
  Proof.
    split; destruct 1.
    - exact (leads_link _ _ _ _ _ _ _ _ (quiet_out _ _ H (fun f => f)) H0).
    - exact (leads_hop _ _ _ _ _ _ _ _ _ (quiet_out _ _ H (fun f => f)) H0).
    - exact (leads_link _ _ _ _ _ _ _ _ (quiet_into _ H) H0).
    - exact (leads_hop _ _ _ _ _ _ _ _ _ (quiet_into _ H) H0).
  Qed.
  Lemma quiet_comes n path b hs : comes (tr ++ ev) n path b hs <-> comes tr n path b hs.
  Proof.
    split; induction 1.
    - econstructor; eauto. exact (quiet_out _ _ H (fun f => f)).
    - econstructor 2; eauto. apply quiet_leads. auto.
    - econstructor; eauto. exact (quiet_into _ H).
    - econstructor 2; eauto. apply quiet_leads. auto.
  Qed.
  Lemma quiet_present n path : present (tr ++ ev) n path <-> present tr n path.
  Proof.
    assert (E : forall b, was_ended (tr ++ ev) b <-> was_ended tr b) by (intros b; split; intros (x & I & O); exists x; split; auto; [exact (quiet_out _ _ I (fun f => f))|apply in_or_app; auto]).
    assert (C : forall h, was_cut (tr ++ ev) h <-> was_cut tr h) by (intros h; split; intros (x & I & O); exists x; split; auto; [exact (quiet_out _ _ I (fun f => f))|apply in_or_app; auto]).
    split; intros (b & hs & Cm & Ne & Nc); exists b, hs; (split; [apply quiet_comes; auto|]); (split; [rewrite E in *; auto|intros h I; specialize (Nc h I); rewrite C in *; auto]).
  Qed.
  Lemma quiet_apart : apart (tr ++ ev) <-> apart tr.
  Proof.
    assert (W : ways (tr ++ ev) = ways tr).
    { unfold ways. rewrite flat_map_app. replace (flat_map _ ev) with (@nil (nat * bytes)); [apply app_nil_r|]. symmetry. apply flat_map_nil'. intros [op x] I. specialize (Q _ _ I). destruct op; auto; contradiction. }
    assert (U : puts (tr ++ ev) = puts tr).
    { unfold puts. rewrite flat_map_app. replace (flat_map _ ev) with (@nil (nat * bytes)); [apply app_nil_r|]. symmetry. apply flat_map_nil'. intros [op x] I. specialize (Q _ _ I). destruct op; auto; contradiction. }
    unfold apart. rewrite W, U. tauto.
  Qed.
End Quiet.

Lemma then_settled ops s tr : sprun spread_new ops = (s, tr) -> apart tr -> forall os s', Forall internal os -> fst (sprun s os) = s' -> at_rest s' ->
  forall n path, origin_made tr n -> ((exists b, finds s' n path b) <-> present tr n path) /\ forall b, finds s' n path b -> ~ is_closed s' b.
Proof.
  intros Run Ap os s' F E Rest n path M. destruct (sprun s os) as [s1 ev] eqn:R1. cbn in E. subst s1.
  assert (Run' : sprun spread_new (ops ++ os) = (s', tr ++ ev)) by (rewrite sprun_app, Run, R1; reflexivity).
  assert (Q : forall op x, In (op, x) ev -> internal op).
  { intros op x I. rewrite Forall_forall in F. apply F. rewrite <- (sprun_ops s os), R1. apply (in_map fst) in I. exact I. }
  assert (M' : origin_made (tr ++ ev) n) by (destruct M as (x & I & O); exists x; split; auto; apply in_or_app; auto).
  assert (Ap' : apart (tr ++ ev)) by (apply quiet_apart; auto).
  destruct (settled _ _ _ Run' (apart_once _ _ _ Run' Ap') Rest n path M') as (S1 & S2). split; [|exact S2]. rewrite S1. apply quiet_present. exact Q.
Qed.
