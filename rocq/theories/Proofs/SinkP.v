From Coq Require Import NArith Arith List Lia Bool.
From Coq Require Import Init.Byte Strings.Byte.
From Verif.Model Require Import Base Import Sink.
From Verif.Spec Require Import ImportSpec SinkSpec.
From Verif.Proofs Require Import ImportP.
Import ListNotations.

Section Runs.
  Context (dec : decoder) (m : mode) (w : N).
  Local Notation feed0 cs := (feed dec m w cs imp_new).

  Lemma feed_snoc cs : forall s c, feed dec m w (cs ++ [c]) s =
    match feed dec m w cs s with (s1, POk _) => match parse dec m w c s1 with (s2, POk _) => (s2, POk (im_buf s2)) | r => r end | r => r end.
  Proof.
    induction cs as [|x cs IH]; intros s c; cbn.
    - destruct (parse dec m w c s) as [s2 [r| | |]]; reflexivity.
    - destruct (parse dec m w x s) as [s2 [r| | |]]; auto.
  Qed.

  (** What the spec reads off one more event. *)
  Definition fed_step (acc : list (list bytes)) (e : skop * skout) : list (list bytes) :=
    match e with
    | (KStart _, KOk) => acc ++ [[]]
    | (KRender (Some d), KOk) => removelast acc ++ [last acc [] ++ [d]]
    | _ => acc
    end.
  Lemma fed_snoc tr e : fed (tr ++ [e]) = fed_step (fed tr) e.
  Proof.
    unfold fed. generalize (@nil (list bytes)). induction tr as [|[o x] tr IH]; intros acc; cbn [app].
    - destruct e as [[u|b| |u| |[d|]] []]; reflexivity.
    - destruct o as [u|b| |u| |[d|]], x; cbn [fed_from]; apply IH.
  Qed.
  Definition url_step (acc : option bytes) (e : skop * skout) : option bytes := match e with (KUrl v, KOk) => v | _ => acc end.
  Lemma url_snoc tr e : url_of (tr ++ [e]) = url_step (url_of tr) e.
  Proof.
    unfold url_of. generalize (@None bytes). induction tr as [|[o x] tr IH]; intros acc; cbn [app].
    - destruct e as [[u|b| |u| |d] []]; reflexivity.
    - destruct o as [u|b| |u| |d], x; cbn [url_from]; apply IH.
  Qed.

  (** Before a panic. *)
  Record clean (tr : list (skop * skout)) (s : sink) : Prop := Clean {
    c_none : ~ panicked tr;
    c_flags : sk_settings_poisoned s = false /\ sk_state_poisoned s = false /\ sk_panicked s = false /\ sk_aborted s = false;
    c_url : sk_url s = url_of tr;
    c_casts : sk_casts s = map (fun cs => fst (feed0 cs)) (fed tr);
    c_good : forall cs, In cs (fed tr) -> exists r, snd (feed0 cs) = POk r;
    c_media : sk_media s = match fed tr with [] => false | _ => true end }.
  (** After one: what happened, and what is left. *)
  Lemma fed_more_one tr d : fed tr <> [] -> fed_more tr (KRender (Some d)) = removelast (fed tr) ++ [last (fed tr) [] ++ [d]].
  Proof. unfold fed_more. destruct (fed tr); [congruence|reflexivity]. Qed.
  Record broken (tr : list (skop * skout)) (s : sink) : Prop := Broken {
    b_where : exists tr1 op tr2, tr = tr1 ++ (op, KPosted) :: tr2 /\ ~ panicked tr1 /\ no_good dec m w tr1 op /\
              sk_casts s = map (fun cs => fst (feed0 cs)) (fed_more tr1 op) /\
              sk_settings_poisoned s = match op with KStart _ => true | _ => false end /\
              forall op2 x, In (op2, x) tr2 -> ~ is_property op2 -> x <> KOk /\ x <> KErr;
    b_flag : sk_panicked s = true;
    b_abort : sk_aborted s = true -> sk_settings_poisoned s = true }.

  Lemma last_snoc {A} (l : list A) d : l <> [] -> l = removelast l ++ [last l d].
  Proof. apply app_removelast_last. Qed.

  Lemma not_panicked_snoc tr op x : ~ panicked tr -> x <> KPosted -> ~ panicked (tr ++ [(op, x)]).
  Proof. intros N X (o & I). apply in_app_iff in I. destruct I as [I|[[= -> ->]|[]]]; [apply N; exists o; exact I|congruence]. Qed.

  Lemma clean_step tr s op s' x : clean tr s -> skstep dec m w s op = (s', x) -> clean (tr ++ [(op, x)]) s' \/ broken (tr ++ [(op, x)]) s'.
  Proof.
    intros [N (F1 & F2 & F3 & F4) U C G M] T. unfold skstep in T. rewrite F4 in T.
    assert (Q : forall s', sk_settings_poisoned s' = false -> sk_state_poisoned s' = false -> sk_panicked s' = false -> sk_aborted s' = false ->
       forall x, x <> KPosted -> sk_url s' = url_of (tr ++ [(op, x)]) -> sk_casts s' = sk_casts s -> sk_media s' = sk_media s -> fed (tr ++ [(op, x)]) = fed tr -> clean (tr ++ [(op, x)]) s').
    { intros s1 Q1 Q2 Q3 Q4 y Y Q5 Q6 Q7 Q8. constructor; auto; rewrite ?Q8; auto; try congruence. apply not_panicked_snoc; auto. }
    destruct op as [u|b| |u| |d].
    - rewrite F1 in T. injection T as <- <-. left. apply Q; auto; try discriminate; rewrite ?url_snoc, ?fed_snoc; reflexivity.
    - rewrite F1 in T. injection T as <- <-. left. apply Q; auto; try discriminate; rewrite ?url_snoc, ?fed_snoc; cbn; auto.
    - rewrite F1 in T. injection T as <- <-. left. apply Q; auto; try discriminate; rewrite ?url_snoc, ?fed_snoc; cbn; auto.
    - rewrite F3 in T. unfold sk_setup in T. rewrite F1, F2 in T.
      assert (B : no_good dec m w tr (KStart u) -> (s', x) = settings_panic s -> broken (tr ++ [(KStart u, x)]) s').
      { intros Bad E. injection E as -> ->. constructor; [|reflexivity|reflexivity]. exists tr, (KStart u), []. split; [reflexivity|]. split; [exact N|]. split; [exact Bad|].
        split; [exact C|]. split; [reflexivity|]. intros op2 x [] . }
      destruct (sk_url s) as [v|] eqn:V.
      + destruct u; try (injection T as <- <-; left; apply Q; auto; try discriminate; rewrite ?url_snoc, ?fed_snoc; cbn; congruence).
        * right. apply B; [exact I|congruence].
        * right. apply B; [exact I|congruence].
        * injection T as <- <-. left. constructor; cbn; auto.
          -- apply not_panicked_snoc; [exact N|discriminate].
          -- rewrite url_snoc. exact U.
          -- rewrite fed_snoc. cbn. rewrite map_app, C. reflexivity.
          -- rewrite fed_snoc. cbn. intros cs I. apply in_app_iff in I. destruct I as [I|[<-|[]]]; [auto|]. exists []. reflexivity.
          -- rewrite fed_snoc. cbn. destruct (fed tr); reflexivity.
      + right. apply B; [|congruence]. destruct u; cbn; auto.
    - rewrite F3 in T. injection T as <- <-. left. apply Q; auto; try discriminate; rewrite ?url_snoc, ?fed_snoc; cbn; auto.
    - rewrite F3 in T. unfold sk_render in T. destruct d as [d|]; [|injection T as <- <-; left; apply Q; auto; try discriminate; rewrite ?url_snoc, ?fed_snoc; cbn; auto].
      rewrite F2, M in T. destruct (fed tr) as [|c0 cs0] eqn:Fd.
      + right. injection T as <- <-. constructor; [|reflexivity|cbn; congruence]. exists tr, (KRender (Some d)), []. split; [reflexivity|]. split; [exact N|].
        split; [cbn; left; exact Fd|]. split; [unfold fed_more; rewrite Fd; exact C|]. split; [cbn; exact F1|]. intros op2 x [].
      + assert (Ne : fed tr <> []) by (rewrite Fd; discriminate). rewrite <- Fd in *. clear c0 cs0 Fd.
        pose proof (last_snoc (fed tr) [] Ne) as L. set (cs := last (fed tr) []) in *. set (bs := removelast (fed tr)) in *.
        rewrite C, L, map_app, rev_app_distr in T. cbn [map rev app] in T.
        destruct (G cs) as [r Hr]; [rewrite L; apply in_or_app; right; left; reflexivity|].
        pose proof (feed_snoc cs imp_new d) as Fs. destruct (feed0 cs) as [i o] eqn:Fc. cbn in Hr. subst o. cbn [fst] in T.
        destruct (parse dec m w d i) as [i2 [r2|e| |]] eqn:P.
        * injection T as <- <-. left. constructor; cbn; auto.
          -- apply not_panicked_snoc; [exact N|discriminate].
          -- rewrite url_snoc. exact U.
          -- rewrite fed_snoc. cbn. fold bs cs. rewrite map_app, rev_involutive. cbn [map]. rewrite Fs. reflexivity.
          -- rewrite fed_snoc. cbn. fold bs cs. intros c I. apply in_app_iff in I. destruct I as [I|[<-|[]]]; [apply G; rewrite L; apply in_or_app; auto|].
             rewrite Fs. eexists. reflexivity.
          -- rewrite fed_snoc. cbn. fold bs. destruct bs; reflexivity.
        * right. injection T as <- <-. constructor; [|reflexivity|cbn; congruence]. exists tr, (KRender (Some d)), []. split; [reflexivity|]. split; [exact N|].
          split; [cbn; right; fold cs; intros r3; rewrite Fs; discriminate|]. split; [|split; [cbn; exact F1|intros op2 x []]].
          rewrite (fed_more_one tr d Ne). fold bs cs. cbn [sk_casts]. rewrite map_app. cbn [map]. rewrite Fs, rev_involutive. reflexivity.
        * right. injection T as <- <-. constructor; [|reflexivity|cbn; congruence]. exists tr, (KRender (Some d)), []. split; [reflexivity|]. split; [exact N|].
          split; [cbn; right; fold cs; intros r3; rewrite Fs; discriminate|]. split; [|split; [cbn; exact F1|intros op2 x []]].
          rewrite (fed_more_one tr d Ne). fold bs cs. cbn [sk_casts]. rewrite map_app. cbn [map]. rewrite Fs, rev_involutive. reflexivity.
        * right. injection T as <- <-. constructor; [|reflexivity|cbn; congruence]. exists tr, (KRender (Some d)), []. split; [reflexivity|]. split; [exact N|].
          split; [cbn; right; fold cs; intros r3; rewrite Fs; discriminate|]. split; [|split; [cbn; exact F1|intros op2 x []]].
          rewrite (fed_more_one tr d Ne). fold bs cs. cbn [sk_casts]. rewrite map_app. cbn [map]. rewrite Fs, rev_involutive. reflexivity.
  Qed.

  Lemma broken_step tr s op s' x : broken tr s -> skstep dec m w s op = (s', x) -> broken (tr ++ [(op, x)]) s'.
  Proof.
    intros [(tr1 & op1 & tr2 & E & N & Bad & C & P & A) F Ab] T.
    assert (K : sk_casts s' = sk_casts s /\ sk_settings_poisoned s' = sk_settings_poisoned s /\ sk_panicked s' = true /\ (sk_aborted s' = true -> sk_settings_poisoned s' = true) /\ (~ is_property op -> x <> KOk /\ x <> KErr)).
    { unfold skstep in T. destruct (sk_aborted s) eqn:Ae; [injection T as <- <-; rewrite Ae; repeat split; auto; discriminate|]. rewrite F in T.
      destruct op; cbn [is_property]; try destruct (sk_settings_poisoned s) eqn:Sp; injection T as <- <-; cbn; repeat split; auto; try discriminate; try tauto; try congruence. }
    destruct K as (K1 & K2 & K3 & K5 & K4). constructor; [|exact K3|exact K5].
    exists tr1, op1, (tr2 ++ [(op, x)]). split; [rewrite E, <- app_assoc; reflexivity|]. split; [exact N|]. split; [exact Bad|].
    split; [congruence|]. split; [congruence|]. intros op2 y I. apply in_app_iff in I. destruct I as [I|[[= <- <-]|[]]]; [eauto|exact K4].
  Qed.

  Lemma sink_run ops : forall tr0 s s' tr, clean tr0 s \/ broken tr0 s -> skrun dec m w s ops = (s', tr) -> clean (tr0 ++ tr) s' \/ broken (tr0 ++ tr) s'.
  Proof.
    induction ops as [|op ops IH]; intros tr0 s s' tr I R; cbn in R; [injection R as <- <-; rewrite app_nil_r; exact I|].
    destruct (skstep dec m w s op) as [s1 x] eqn:T. destruct (skrun dec m w s1 ops) as [s2 tr1] eqn:R1. injection R as <- <-.
    change ((op, x) :: tr1) with ([(op, x)] ++ tr1). rewrite app_assoc. eapply IH; [|exact R1].
    destruct I as [I|I]; [apply (clean_step _ _ _ _ _ I T)|right; apply (broken_step _ _ _ _ _ I T)].
  Qed.
  Lemma sink_from_new ops s tr : skrun dec m w sink_new ops = (s, tr) -> clean tr s \/ broken tr s.
  Proof.
    intros R. apply (sink_run ops [] sink_new s tr); [|exact R]. left. constructor; cbn; auto.
    - intros (op & []).
    - intros cs [].
  Qed.
  Lemma broken_panicked tr s : broken tr s -> panicked tr.
  Proof. intros [(tr1 & op & tr2 & -> & _) _ _]. exists op. apply in_or_app. right. left. reflexivity. Qed.
  Lemma first_panic (tr1 tr1' tr2 tr2' : list (skop * skout)) op op' : tr1 ++ (op, KPosted) :: tr2 = tr1' ++ (op', KPosted) :: tr2' -> ~ panicked tr1 -> ~ panicked tr1' ->
    tr1 = tr1' /\ op = op' /\ tr2 = tr2'.
  Proof.
    revert tr1'. induction tr1 as [|e tr1 IH]; intros [|e' tr1'] E N N'; cbn in E.
    - injection E as -> ->. auto.
    - injection E as <- E. exfalso. apply N'. exists op. left. reflexivity.
    - injection E as -> E. exfalso. apply N. exists op'. left. reflexivity.
    - injection E as <- E. destruct (IH _ E) as (-> & -> & ->); auto; intros (o & I); [apply N|apply N']; exists o; right; exact I.
  Qed.

  Section Final.
    Context (ops : list skop) (s : sink) (tr : list (skop * skout)) (R : skrun dec m w sink_new ops = (s, tr)).

    Lemma content : ~ panicked tr -> sk_casts s = map (fun cs => fst (feed0 cs)) (fed tr) /\ forall cs, In cs (fed tr) -> exists r, snd (feed0 cs) = POk r.
    Proof.
      intros N. destruct (sink_from_new _ _ _ R) as [C|B]; [split; [apply C|apply C]|]. exfalso. exact (N (broken_panicked _ _ B)).
    Qed.
    Lemma content_failed tr1 op tr2 : tr = tr1 ++ (op, KPosted) :: tr2 -> ~ panicked tr1 ->
      no_good dec m w tr1 op /\ sk_casts s = map (fun cs => fst (feed0 cs)) (fed_more tr1 op) /\
      forall op2 x, In (op2, x) tr2 -> ~ is_property op2 -> x <> KOk /\ x <> KErr.
    Proof.
      intros E N. destruct (sink_from_new _ _ _ R) as [C|B].
      - exfalso. apply (c_none _ _ C). exists op. rewrite E. apply in_or_app. right. left. reflexivity.
      - destruct (b_where _ _ B) as (t1 & o1 & t2 & E1 & N1 & Bad & Cs & _ & A). rewrite E in E1.
        destruct (first_panic _ _ _ _ _ _ E1 N N1) as (-> & -> & ->). auto.
    Qed.
    Lemma panics op : ~ panicked tr -> (snd (skstep dec m w s op) = KPosted <-> no_good dec m w tr op).
    Proof.
      intros N. destruct (sink_from_new _ _ _ R) as [C|B]; [|exfalso; exact (N (broken_panicked _ _ B))].
      destruct (skstep dec m w s op) as [s' x] eqn:T. cbn [snd]. split.
      - intros ->. destruct (clean_step _ _ _ _ _ C T) as [C'|B'].
        + exfalso. apply (c_none _ _ C'). exists op. apply in_or_app. right. left. reflexivity.
        + destruct (b_where _ _ B') as (t1 & o1 & t2 & E1 & N1 & Bad & _). change [(op, KPosted)] with ((op, KPosted) :: []) in E1.
          destruct (first_panic _ _ _ _ _ _ E1 N N1) as (-> & -> & _). exact Bad.
      - intros Bad. destruct C as [_ (F1 & F2 & F3 & F4) U C G M]. unfold skstep in T. rewrite F4 in T. destruct op as [u|b| |u| |[d|]]; try contradiction.
        + rewrite F3 in T. unfold sk_setup in T. rewrite F1 in T. destruct u; cbn in Bad; try (rewrite <- U in Bad; rewrite Bad in T; injection T as _ <-; reflexivity).
          * destruct (sk_url s) in T; injection T as _ <-; reflexivity.
          * destruct (sk_url s) in T; injection T as _ <-; reflexivity.
        + rewrite F3 in T. unfold sk_render in T. rewrite F2, M in T. cbn in Bad. destruct (fed tr) as [|c0 cs0] eqn:Fd; [injection T as _ <-; reflexivity|].
          assert (Ne : fed tr <> []) by (rewrite Fd; discriminate). rewrite <- Fd in *. clear c0 cs0 Fd.
          pose proof (last_snoc (fed tr) [] Ne) as L. rewrite C, L, map_app, rev_app_distr in T. cbn [map rev app] in T.
          destruct Bad as [Bad|Bad]; [congruence|]. rewrite feed_snoc in Bad.
          destruct (G (last (fed tr) [])) as [r Hr]; [rewrite L at 2; apply in_or_app; right; left; reflexivity|].
          destruct (feed0 (last (fed tr) [])) as [i o]. cbn in Hr. subst o. cbn [fst] in T.
          destruct (parse dec m w d i) as [i2 [r2|e| |]]; try (injection T as _ <-; reflexivity). exfalso. apply (Bad (im_buf i2)). reflexivity.
    Qed.
    Lemma aborts op : is_property op -> (snd (skstep dec m w s op) = KAborted <-> start_panicked tr).
    Proof.
      intros P. assert (Ab : snd (skstep dec m w s op) = KAborted <-> sk_settings_poisoned s = true).
      { assert (Q : sk_aborted s = true -> sk_settings_poisoned s = true).
        { destruct (sink_from_new _ _ _ R) as [C|B]; [destruct (c_flags _ _ C) as (_ & _ & _ & ->); discriminate|apply B]. }
        unfold skstep. destruct (sk_aborted s); [cbn; tauto|]. destruct op; try contradiction; destruct (sk_settings_poisoned s); cbn; split; auto; discriminate. }
      rewrite Ab. destruct (sink_from_new _ _ _ R) as [C|B].
      - destruct (c_flags _ _ C) as (-> & _). split; [discriminate|]. intros (t1 & u & t2 & -> & _). exfalso. apply (c_none _ _ C). exists (KStart u). apply in_or_app. right. left. reflexivity.
      - destruct (b_where _ _ B) as (t1 & o1 & t2 & E1 & N1 & Bad & Cs & Sp & A). rewrite Sp. split.
        + destruct o1; try discriminate. intros _. exists t1, u, t2. auto.
        + intros (t1' & u & t2' & E2 & N2). rewrite E1 in E2. destruct (first_panic _ _ _ _ _ _ E2 N1 N2) as (_ & -> & _). reflexivity.
    Qed.
  End Final.
End Runs.
