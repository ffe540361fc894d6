From Coq Require Import NArith List Bool Lia.
From Verif.Model Require Import JsChat.
From Verif.Spec Require Import JsChatSpec.
Import ListNotations.
Open Scope N_scope.

Definition seenf (x : option nat) (e : hev) := match e with OGroup _ => None | OFrame _ m => Some m | _ => x end.
Lemma seen_app l m : seen (l ++ m) = fold_left seenf m (seen l).
Proof. unfold seen. rewrite fold_left_app. reflexivity. Qed.
Definition duest (l : hlog) := fold_left due_step l (0, None, None).
Lemma duest_app l m : duest (l ++ m) = fold_left due_step m (duest l).
Proof. unfold duest. rewrite fold_left_app. reflexivity. Qed.

Lemma end_seen s x : fold_left seenf (end_last s) x = x.
Proof. unfold end_last. destruct (h_ng s); reflexivity. Qed.
Lemma end_due s x : fold_left due_step (end_last s) x = x.
Proof. unfold end_last. destruct (h_ng s), x as [[a b] c]; reflexivity. Qed.

Record Inv (s : chat) (l : hlog) : Prop := {
  v_clock : fst (duest l) = (h_now s, h_ttl s);
  v_ttl : h_ttl s <> Some 0;
  v_cur : match snd (duest l) with Some (m, d) => seen l = Some m /\ h_due s = d | None => seen l = None end }.

Lemma step_inv s l o : plain o -> Inv s l -> Inv (fst (h_step s o)) (l ++ snd (h_step s o)).
Proof.
  intros P [C T U]. destruct (duest l) as [[now ttl] cur] eqn:D. cbn [fst snd] in *. injection C as -> ->.
  destruct o as [t|m| | |n]; cbn [h_step].
  - cbn [fst snd]. split; cbn [h_now h_ttl h_due]; rewrite ?duest_app, ?seen_app, ?D; cbn; auto. destruct t as [[|p]|]; cbn in P; [contradiction|discriminate|discriminate].
  - unfold emit, publish. cbn [fst snd]. split; cbn [h_now h_ttl h_due]; rewrite ?duest_app, ?seen_app, ?D; cbn [fold_left]; rewrite ?fold_left_app, ?end_seen, ?end_due; cbn [due_step fold_left fst snd seenf]; auto.
    destruct (h_ttl s) as [[|p]|]; [congruence| |]; cbn; auto.
  - unfold emit, clear. cbn [fst snd]. split; cbn [h_now h_ttl h_due]; rewrite ?duest_app, ?seen_app, ?D; cbn [fold_left]; rewrite ?fold_left_app, ?end_seen, ?end_due; cbn [due_step fold_left fst snd seenf]; auto.
  - destruct P.
  - unfold emit. destruct (h_due s) as [d|] eqn:E; [destruct (d <=? h_now s + n) eqn:L|]; unfold clear; cbn [fst snd].
    + split; cbn [h_now h_ttl h_due]; rewrite ?duest_app, ?seen_app, ?D; cbn [fold_left]; rewrite ?fold_left_app, ?end_seen, ?end_due; cbn [due_step fold_left fst snd seenf]; auto.
      destruct cur as [[m [d'|]]|]; cbn [snd]; [|destruct U; discriminate|reflexivity]. destruct U as [_ U]. injection U as <-. rewrite L. reflexivity.
    + split; cbn [h_now h_ttl h_due]; rewrite ?duest_app, ?seen_app, ?D; cbn [fold_left due_step fst snd seenf]; auto.
      destruct cur as [[m [d'|]]|]; cbn [snd]; auto. destruct U as [U1 U]. injection U as <-. rewrite L. auto.
    + split; cbn [h_now h_ttl h_due]; rewrite ?duest_app, ?seen_app, ?D; cbn [fold_left due_step fst snd seenf]; auto.
      destruct cur as [[m [d'|]]|]; cbn [snd]; auto; destruct U; discriminate.
Qed.
Lemma run_inv ops : forall s l, Forall plain ops -> Inv s l -> Inv (fst (h_run s ops)) (l ++ snd (h_run s ops)).
Proof.
  induction ops as [|o ops IH]; intros s l F I; [cbn; rewrite app_nil_r; exact I|]. inversion F; subst. cbn [h_run].
  pose proof (step_inv s l o H1 I) as J. destruct (h_step s o) as [s1 a]. cbn [fst snd] in J. specialize (IH _ _ H2 J).
  destruct (h_run s1 ops) as [s2 b]. cbn [fst snd] in *. rewrite app_assoc. exact IH.
Qed.
Lemma seen_due ops : Forall plain ops -> seen (snd (h_run h_init ops)) = due (snd (h_run h_init ops)).
Proof.
  intros F. assert (I : Inv h_init []) by (split; cbn; auto; discriminate). pose proof (run_inv ops _ _ F I) as [_ _ U]. cbn [app] in U.
  unfold due. fold (duest (snd (h_run h_init ops))). destruct (snd (duest _)) as [[m d]|]; [apply U|exact U].
Qed.

(** ** The groups *)
Record EInv (s : chat) (l : hlog) : Prop := {
  e_ord : ended_before l;
  e_lt : forall g, In (OGroup g) l -> (g < h_ng s)%nat;
  e_all : forall h, In (OGroup h) l -> S h = h_ng s \/ In (OEnd h) l }.

Lemma app_mid {A} (l m a b : list A) x : l ++ m = a ++ x :: b -> (exists b', l = a ++ x :: b') \/ (exists c, a = l ++ c /\ m = c ++ x :: b).
Proof.
  revert a. induction l as [|y l IH]; intros a E; [right; exists a; auto|]. destruct a as [|z a]; cbn in E; injection E as -> E.
  - left. exists l. reflexivity.
  - destruct (IH _ E) as [[b' ->]|(c & -> & E')]; [left; exists b'; reflexivity|right; exists c; auto].
Qed.
Definition quiet (e : hev) : Prop := match e with OGroup _ => False | _ => True end.
Lemma E_quiet s s' l m : Forall quiet m -> h_ng s' = h_ng s -> EInv s l -> EInv s' (l ++ m).
Proof.
  intros F E [O L A]. rewrite Forall_forall in F.
  assert (X : forall g, In (OGroup g) (l ++ m) -> In (OGroup g) l) by (intros g H; apply in_app_iff in H; destruct H as [H|H]; [exact H|destruct (F _ H)]).
  split.
  - intros a g b Eq h Hh. apply app_mid in Eq. destruct Eq as [[b' Eq]|(c & -> & Eq)]; [eapply O; eassumption|]. exfalso. apply (F (OGroup g)). rewrite Eq, in_app_iff. cbn. auto.
  - intros g H. rewrite E. apply L, X, H.
  - intros h H. rewrite E. destruct (A h (X _ H)); [auto|]. right. apply in_app_iff. auto.
Qed.
Lemma E_open s s' l : h_ng s' = S (h_ng s) -> EInv s l -> EInv s' (l ++ end_last s ++ [OGroup (h_ng s)]).
Proof.
  intros E I. assert (J : EInv s (l ++ end_last s)) by (eapply E_quiet; [|reflexivity|exact I]; unfold end_last; destruct (h_ng s); repeat constructor).
  assert (K : forall h, In (OGroup h) (l ++ end_last s) -> (h < h_ng s)%nat /\ In (OEnd h) (l ++ end_last s)).
  { intros h H. pose proof (e_lt _ _ J h H) as Hl. split; [exact Hl|]. destruct (e_all _ _ J h H) as [Hs|Hs]; [|exact Hs].
    apply in_app_iff. right. unfold end_last. rewrite <- Hs. cbn. auto. }
  rewrite app_assoc. split.
  - intros a g b Eq h Hh. apply app_mid in Eq. destruct Eq as [[b' Eq]|(c & -> & Eq)]; [eapply (e_ord _ _ J); eassumption|].
    destruct c as [|? [|? c]]; cbn in Eq; try discriminate. injection Eq as <- _. rewrite app_nil_r in *. apply K, Hh.
  - intros g H. rewrite E. apply in_app_iff in H. destruct H as [H|[H|[]]]; [apply (e_lt _ _ J) in H; lia|injection H as <-; lia].
  - intros h H. rewrite E. apply in_app_iff in H. destruct H as [H|[H|[]]]; [right; apply in_app_iff; left; apply K, H|injection H as <-; auto].
Qed.
Lemma E_step s l o : EInv s l -> EInv (fst (h_step s o)) (l ++ snd (h_step s o)).
Proof.
  intros I. destruct o as [t|m| | |n]; cbn [h_step].
  - apply (E_quiet s); [repeat constructor|reflexivity|exact I].
  - unfold emit, publish. cbn [fst snd].
    replace (l ++ IPublish m :: end_last s ++ [OGroup (h_ng s); OFrame (h_ng s) m]) with (((l ++ [IPublish m]) ++ end_last s ++ [OGroup (h_ng s)]) ++ [OFrame (h_ng s) m]) by (rewrite <- !app_assoc; reflexivity).
    eapply E_quiet; [constructor; [exact Logic.I|constructor]|reflexivity|]. eapply (E_open s); [reflexivity|]. apply (E_quiet s); [repeat constructor|reflexivity|exact I].
  - unfold emit, clear. cbn [fst snd]. replace (l ++ IClear :: end_last s ++ [OGroup (h_ng s)]) with ((l ++ [IClear]) ++ end_last s ++ [OGroup (h_ng s)]) by (rewrite <- !app_assoc; reflexivity).
    eapply (E_open s); [reflexivity|]. apply (E_quiet s); [repeat constructor|reflexivity|exact I].
  - cbn [fst snd]. apply (E_quiet s); [|reflexivity|exact I]. unfold end_last. destruct (h_ng s); repeat constructor.
  - unfold emit. destruct (h_due s) as [d|]; [destruct (d <=? h_now s + n)|]; unfold clear; cbn [fst snd h_ng h_now h_ttl h_due].
    + set (s' := Chat (h_now s + n) (h_ttl s) (h_ng s) None). change (h_ng s) with (h_ng s').
      replace (l ++ IWait n :: end_last s' ++ [OGroup (h_ng s')]) with ((l ++ [IWait n]) ++ end_last s' ++ [OGroup (h_ng s')]) by (rewrite <- !app_assoc; reflexivity).
      eapply (E_open s'); [reflexivity|]. apply (E_quiet s); [repeat constructor|reflexivity|exact I].
    + apply (E_quiet s); [repeat constructor|reflexivity|exact I].
    + apply (E_quiet s); [repeat constructor|reflexivity|exact I].
Qed.
Lemma E_run ops : forall s l, EInv s l -> EInv (fst (h_run s ops)) (l ++ snd (h_run s ops)).
Proof.
  induction ops as [|o ops IH]; intros s l I; [cbn; rewrite app_nil_r; exact I|]. cbn [h_run].
  pose proof (E_step s l o I) as J. destruct (h_step s o) as [s1 a]. cbn [fst snd] in J. specialize (IH _ _ J).
  destruct (h_run s1 ops) as [s2 b]. cbn [fst snd] in *. rewrite app_assoc. exact IH.
Qed.
Lemma groups ops : ended_before (snd (h_run h_init ops)).
Proof. assert (I : EInv h_init []) by (split; [intros a g b E; destruct a; discriminate|intros ? []|intros ? []]). apply (E_run ops _ _ I). Qed.
