From Coq Require Import NArith ZArith List Lia Bool Arith.
From Verif.Model Require Import Base FrameSys MediaRead.
From Verif.Spec Require Import MediaReadSpec.
From Verif.Proofs Require Import TableP.
Import ListNotations.
Open Scope nat_scope.

(** * Buffering ahead *)
Definition reached (cutoff : N) (g : rgroup) : Prop :=
  match rg_max g with Some m => (cutoff <= m)%N | None => False end.

Lemma reached_dec cutoff g :
  (reached cutoff g /\ exists m, rg_max g = Some m /\ forall fuel env, buffer_until (S fuel) cutoff g env = (BReady m, g)) \/
  (~ reached cutoff g /\ forall fuel env, buffer_until (S fuel) cutoff g env =
     match rg_buf g with
      | f :: rest => buffer_until fuel cutoff (with_buf g (rest ++ [f])) env
      | [] =>
        match env with
        | FFrame ts :: env => let (f, g) := rg_frame g ts in
                              buffer_until fuel cutoff (with_buf g (rg_buf g ++ [f])) env
        | _ => (BWait, g)
        end
      end).
Proof.
  unfold reached. cbn [buffer_until]. destruct (rg_max g) as [m|].
  - destruct (N.leb_spec cutoff m) as [L|L]; [left|right]; split; auto.
    + eauto.
    + lia.
  - right. split; auto.
Qed.

Lemma buffer_spins fuel cutoff : forall g env, ~ reached cutoff g -> rg_buf g <> [] ->
  fst (buffer_until fuel cutoff g env) = BLoop.
Proof.
  induction fuel as [|fuel IH]; intros g env N B; [reflexivity|].
  destruct (reached_dec cutoff g) as [[R _]|[_ E]]; [contradiction|]. rewrite E.
  destruct (rg_buf g) as [|f rest]; [congruence|]. apply IH; auto. cbn. destruct rest; discriminate.
Qed.

(** Exactly when it stops. *)
Definition stops (cutoff : N) (g : rgroup) (env : list fans) : Prop :=
  reached cutoff g \/
  (rg_buf g = [] /\ match env with FFrame ts :: _ => (cutoff <= ts)%N | _ => True end).

Lemma buffer_exact cutoff g env :
  (exists fuel, fst (buffer_until fuel cutoff g env) <> BLoop) <-> stops cutoff g env.
Proof.
  split.
  - intros (fuel & H). destruct fuel as [|fuel]; [cbn in H; congruence|].
    destruct (reached_dec cutoff g) as [[R _]|[NR E]]; [left; auto|].
    rewrite E in H. destruct (rg_buf g) as [|f rest] eqn:B.
    + right. split; auto. destruct env as [|[ts| | |] env]; auto. cbn in H.
      set (g' := with_buf _ _) in H. destruct (reached_dec cutoff g') as [[R _]|[NR' _]].
      * unfold reached in R. cbn in R. unfold reached in NR. destruct (rg_max g) as [m|]; lia.
      * exfalso. apply H. apply buffer_spins; auto. cbn. rewrite B. discriminate.
    + exfalso. apply H. apply buffer_spins; auto. cbn. destruct rest; discriminate.
  - intros [R|[B E]].
    + exists 1. destruct (reached_dec cutoff g) as [[_ (m & _ & E)]|[NR _]]; [|contradiction]. rewrite E. discriminate.
    + exists 2. destruct (reached_dec cutoff g) as [[_ (m & _ & E1)]|[NR E1]]; rewrite E1; [discriminate|].
      rewrite B. destruct env as [|[ts| | |] env]; try discriminate. cbn [rg_frame]. set (g' := with_buf _ _).
      destruct (reached_dec cutoff g') as [[_ (m & _ & E2)]|[NR2 _]]; [rewrite E2; discriminate|].
      exfalso. apply NR2. unfold reached. cbn. lia.
Qed.

(** When it stops, frames are neither lost nor reordered. *)
Lemma buffer_keeps fuel cutoff g env b g' : buffer_until fuel cutoff g env = (b, g') -> b <> BLoop ->
  g' = g \/ (rg_buf g = [] /\ exists ts env', env = FFrame ts :: env' /\
     g' = RG (rg_seq g) (S (rg_index g)) [RFrame (rg_seq g) (rg_index g) ts]
            (Some (N.max (match rg_max g with Some m => m | None => 0%N end) ts))).
Proof.
  intros H NB. destruct fuel as [|fuel]; [cbn in H; congruence|].
  destruct (reached_dec cutoff g) as [[_ (m & _ & E)]|[NR E]]; rewrite E in H; [injection H as <- <-; auto|].
  destruct (rg_buf g) as [|f rest] eqn:B.
  - destruct env as [|[ts| | |] env]; try (injection H as <- <-; auto; fail). cbn [rg_frame] in H.
    set (g1 := with_buf _ _) in H. right. split; auto. exists ts, env. split; auto.
    destruct fuel as [|fuel]; [cbn in H; congruence|].
    destruct (reached_dec cutoff g1) as [[_ (m & _ & E1)]|[NR1 E1]].
    + rewrite E1 in H. injection H as <- <-. unfold g1, with_buf. cbn. rewrite B. reflexivity.
    + exfalso. apply NB. rewrite <- (buffer_spins (S fuel) cutoff g1 env NR1); [rewrite H; reflexivity|]. cbn. rewrite B. discriminate.
  - exfalso. apply NB. rewrite <- (buffer_spins fuel cutoff (with_buf g (rest ++ [f])) env); [rewrite H; reflexivity|auto|].
    cbn. destruct rest; discriminate.
Qed.

(** In general (also when it loops): the same frames, perhaps one more, in a buffer that is whole. *)
Definition consecutive (g : rgroup) (k : nat) : Prop :=
  k + length (rg_buf g) = rg_index g /\
  forall i f, nth_error (rg_buf g) i = Some f -> rf_seq f = rg_seq g /\ rf_idx f = k + i.

Lemma consecutive_new seq : consecutive (rg_new seq) 0.
Proof. split; cbn; auto. intros [|i] f; discriminate. Qed.

Lemma buffer_consecutive fuel cutoff g env b g' k : buffer_until fuel cutoff g env = (b, g') -> b <> BLoop ->
  consecutive g k -> consecutive g' k /\ rg_seq g' = rg_seq g.
Proof.
  intros H NB [L C]. destruct (buffer_keeps _ _ _ _ _ _ H NB) as [->|(B & ts & env' & _ & ->)].
  - split; auto. split; auto.
  - split; auto. rewrite B in L. cbn in L. split; cbn; [lia|]. intros [|[|i]] f Hf; cbn in Hf; try discriminate.
    injection Hf as <-. cbn. lia.
Qed.

(** * The invariant of the reader *)
(** [k]: how many frames of the current group were returned.  Pending groups are whole. *)
Fixpoint ascending (lo : N) (l : list rgroup) : Prop :=
  match l with [] => True | g :: l => (lo < rg_seq g)%N /\ ascending (rg_seq g) l end.

Definition last_is (l : list rframe) (q : N) (k : nat) : Prop :=
  (** the frames of [l] all have sequences at most [q], and exactly [k] of group [q], the last ones *)
  match rev l with
  | [] => k = 0
  | f :: _ => ((rf_seq f < q)%N /\ k = 0) \/ (rf_seq f = q /\ k = S (rf_idx f))
  end.

Definition upto (l : list N) (q : N) : Prop := forall a, In a l -> (a <= q)%N.

Record rinv (s : reader) (tr : list revent) : Prop := {
  ri_order : in_playback_order (played tr);
  ri_cur : match rd_cur s with
           | Some g => (exists k, consecutive g k /\ last_is (played tr) (rg_seq g) k) /\ ascending (rg_seq g) (rd_pending s)
           | None => rd_pending s = []
           end;
  ri_pending : forall g, In g (rd_pending s) -> consecutive g 0;
  ri_last : forall f, In f (played tr) -> exists a, In a (arrivals tr) /\ (rf_seq f <= a)%N;
  ri_seen : forall g, In g (match rd_cur s with Some c => c :: rd_pending s | None => rd_pending s end) ->
            exists a, In a (arrivals tr) /\ (rg_seq g <= a)%N }.

Lemma played_snoc tr e : played (tr ++ [e]) = played tr ++ played [e].
Proof. unfold played. rewrite flat_map_app. reflexivity. Qed.
Lemma arrivals_snoc tr e : arrivals (tr ++ [e]) = arrivals tr ++ arrivals [e].
Proof. unfold arrivals. rewrite flat_map_app. reflexivity. Qed.

Lemma rinv_new : rinv rd_new [].
Proof.
  split.
  - split; cbn; auto.
  - reflexivity.
  - intros g [].
  - intros f [].
  - intros g [].
Qed.

Lemma playback_snoc l f : playback l -> match rev l with [] => True | a :: _ => follows a f end -> playback (l ++ [f]).
Proof.
  induction l as [|a l IH]; cbn; auto. intros [A P] H.
  destruct l as [|b l]; cbn in *.
  - auto.
  - split; [exact A|]. apply IH; auto. destruct (rev l ++ [b]) as [|c r] eqn:E; [destruct (rev l); discriminate|].
    cbn in H. exact H.
Qed.

Lemma order_snoc l f k : in_playback_order l -> last_is l (rf_seq f) k -> rf_idx f = k -> in_playback_order (l ++ [f]).
Proof.
  intros [H P] L E. unfold last_is in L. split.
  - destruct l as [|a l]; cbn in *; auto. congruence.
  - apply playback_snoc; auto. destruct (rev l) as [|a r]; auto. unfold follows.
    destruct L as [[L ->]|[L ->]]; [right|left]; auto.
Qed.

Lemma last_snoc l f q : rf_seq f = q -> last_is (l ++ [f]) q (S (rf_idx f)).
Proof. intros E. unfold last_is. rewrite rev_app_distr. cbn. right. auto. Qed.

(** Moving to a later group. *)
Lemma last_later l q q' k : last_is l q k -> (q < q')%N -> last_is l q' 0.
Proof. unfold last_is. destruct (rev l); auto. intros [[A _]|[A _]] L; left; split; auto; lia. Qed.

Lemma ascending_all lo l : ascending lo l -> forall g, In g l -> (lo < rg_seq g)%N.
Proof.
  revert lo; induction l as [|h l IH]; intros lo A g []; destruct A as [A B].
  - subst h. auto.
  - specialize (IH _ B _ H). lia.
Qed.
Lemma ascending_lower lo lo' l : (lo <= lo')%N -> ascending lo' l -> ascending lo l.
Proof. destruct l; cbn; auto. intros H [A B]. split; auto. lia. Qed.
Lemma ascending_skipn lo l i : ascending lo l -> ascending lo (skipn i l).
Proof.
  revert lo l; induction i as [|i IH]; intros lo [|h l] A; cbn; auto. destruct A as [A B].
  apply IH. eapply ascending_lower; [|exact B]. lia.
Qed.
Lemma ascending_set lo l i g g' : nth_error l i = Some g -> rg_seq g' = rg_seq g -> ascending lo l -> ascending lo (set_nth i g' l).
Proof.
  revert lo i; induction l as [|h l IH]; intros lo [|i] H E A; cbn in *; try discriminate.
  - injection H as ->. rewrite E. auto.
  - destruct A. auto.
Qed.
Lemma insert_last lo g l : (forall h, In h l -> (rg_seq h < rg_seq g)%N) -> (lo < rg_seq g)%N -> ascending lo l ->
  insert_pending g l = l ++ [g] /\ ascending lo (l ++ [g]).
Proof.
  revert lo; induction l as [|h l IH]; intros lo H L A; cbn; auto. destruct A as [A B].
  assert (Hh : (rg_seq h < rg_seq g)%N) by (apply H; left; auto).
  rewrite (proj2 (N.ltb_lt _ _) Hh). destruct (IH (rg_seq h)) as [-> As]; auto. intros; apply H; right; auto.
Qed.

Lemma in_skipn {A} n (l : list A) x : In x (skipn n l) -> In x l.
Proof. revert l; induction n; intros [|y l] H; cbn in *; auto. Qed.
Lemma in_set_nth {A} n (x y : A) l : In y (set_nth n x l) -> y = x \/ In y l.
Proof. revert n; induction l as [|z l IH]; intros [|n] H; cbn in *; auto; destruct H as [->|H]; auto. apply IH in H. tauto. Qed.

(** Steps that change neither what was played nor what arrived. *)
Definition silent (e : revent) : Prop := played [e] = [] /\ arrivals [e] = [].

Lemma rinv_pop s tr e : rinv s tr -> rd_cur s <> None -> silent e -> rinv (pop s) (tr ++ [e]).
Proof.
  intros [O C P L S] N [E1 E2]. destruct (rd_cur s) as [g|] eqn:Ec; [|congruence]. clear N.
  destruct C as [(k & K & La) A]. unfold pop. split; rewrite ?played_snoc, ?arrivals_snoc, ?E1, ?E2, ?app_nil_r; auto.
  - destruct (rd_pending s) as [|h rest] eqn:Ep; cbn; auto. cbn in A. destruct A as [A B]. split; auto.
    exists 0. split; [apply P; left; auto|]. eapply last_later; eauto.
  - destruct (rd_pending s) as [|h rest]; cbn in *; auto.
  - destruct (rd_pending s) as [|h rest]; cbn in *; auto.
Qed.

(** Replacing a pending group by one that buffered more. *)
Lemma rinv_pending s tr i g g' : rinv s tr -> nth_error (rd_pending s) i = Some g -> rg_seq g' = rg_seq g -> consecutive g' 0 ->
  rinv (Rd (rd_cur s) (set_nth i g' (rd_pending s)) (rd_max s) (rd_lat s)) tr.
Proof.
  intros [O C P L S] Hi Eq Co. split; cbn [rd_cur rd_pending]; auto.
  - destruct (rd_cur s).
    + destruct C as [K A]. split; auto. eapply ascending_set; eauto.
    + rewrite C in Hi. destruct i; discriminate.
  - intros h Hh. apply in_set_nth in Hh as [->|Hh]; auto.
  - assert (Hg : In g (rd_pending s)) by (eapply nth_error_In; eauto).
    intros h Hh. destruct (rd_cur s) as [c|].
    + destruct Hh as [->|Hh]; [apply S; left; auto|]. apply in_set_nth in Hh as [->|Hh]; [rewrite Eq|]; apply S; right; auto.
    + apply in_set_nth in Hh as [->|Hh]; [rewrite Eq|]; apply S; auto.
Qed.

Lemma rinv_skipn s tr i : rinv s tr -> rinv (Rd (rd_cur s) (skipn i (rd_pending s)) (rd_max s) (rd_lat s)) tr.
Proof.
  intros [O C P L S]. split; cbn [rd_cur rd_pending]; auto.
  - destruct (rd_cur s).
    + destruct C as [K A]. split; auto. apply ascending_skipn; auto.
    + rewrite C. apply skipn_nil.
  - intros h Hh. apply P. eapply in_skipn; eauto.
  - intros h Hh. destruct (rd_cur s) as [c|].
    + destruct Hh as [->|Hh]; apply S; [left; auto|right; eapply in_skipn; eauto].
    + apply S. eapply in_skipn; eauto.
Qed.

Lemma rinv_silent s tr e : rinv s tr -> silent e -> rinv s (tr ++ [e]).
Proof.
  intros [O C P L S] [E1 E2]. split; rewrite ?played_snoc, ?arrivals_snoc, ?E1, ?E2, ?app_nil_r; auto.
Qed.

Lemma buffering_inv fuel cutoff bufs : forall s tr s' x, rinv s tr -> buffering fuel cutoff s bufs = (s', x) ->
  x = RHang \/ (x = RWait /\ rinv s' tr) \/ (exists ts, x = RSkip ts /\ forall o, rinv s' (tr ++ [(o, RSkip ts)])).
Proof.
  induction bufs as [|[i env] bufs IH]; intros s tr s' x I H; cbn [buffering] in H.
  - injection H as <- <-. auto.
  - destruct (nth_error (rd_pending s) i) as [g|] eqn:Hi; [|eauto].
    destruct (buffer_until fuel cutoff g env) as [b g'] eqn:Eb.
    assert (Cc : rd_cur s <> None).
    { destruct I as [_ C _ _ _]. destruct (rd_cur s); [discriminate|]. rewrite C in Hi. destruct i; discriminate. }
    assert (Ok : b <> BLoop -> rinv (Rd (rd_cur s) (set_nth i g' (rd_pending s)) (rd_max s) (rd_lat s)) tr).
    { intros NB. destruct (buffer_consecutive _ _ _ _ _ _ 0 Eb NB) as [Co Es].
      { apply I. eapply nth_error_In; eauto. }
      eapply rinv_pending; eauto. }
    destruct b as [ts| |].
    + injection H as <- <-. right. right. exists ts. split; auto. intros o. apply rinv_pop; [|auto|split; reflexivity].
      cbn [rd_cur rd_pending rd_max rd_lat].
      apply (rinv_skipn (Rd (rd_cur s) (set_nth i g' (rd_pending s)) (rd_max s) (rd_lat s))). apply Ok. discriminate.
    + eapply IH; [|exact H]. apply Ok. discriminate.
    + injection H as <- <-. auto.
Qed.

Lemma rinv_arrive s tr seq e x : rinv s tr -> (forall a, In a (arrivals tr) -> (a < seq)%N) ->
  played [e] = [] -> arrivals [e] = [seq] ->
  match rd_cur s with
      | Some c => if (seq <? rg_seq c)%N then (s, RArrived seq)
                  else (Rd (rd_cur s) (insert_pending (rg_new seq) (rd_pending s)) (rd_max s) (rd_lat s), RArrived seq)
      | None => (Rd (Some (rg_new seq)) (rd_pending s) (rd_max s) (rd_lat s), RArrived seq)
      end = x -> rinv (fst x) (tr ++ [e]).
Proof.
  intros [O C P L S] Lt E1 E2 <-.
  assert (Sm : forall g, In g match rd_cur s with Some c => c :: rd_pending s | None => rd_pending s end -> (rg_seq g < seq)%N).
  { intros g Hg. destruct (S g Hg) as (a & Ha & La). specialize (Lt a Ha). lia. }
  assert (L' : forall f, In f (played tr) -> exists a, In a (arrivals tr ++ [seq]) /\ (rf_seq f <= a)%N).
  { intros f Hf. destruct (L f Hf) as (a & Ha & La). exists a. rewrite in_app_iff. auto. }
  assert (S' : forall g, In g match rd_cur s with Some c => c :: rd_pending s | None => rd_pending s end ->
     exists a, In a (arrivals tr ++ [seq]) /\ (rg_seq g <= a)%N).
  { intros g Hg. destruct (S g Hg) as (a & Ha & La). exists a. rewrite in_app_iff. auto. }
  assert (Me : exists a, In a (arrivals tr ++ [seq]) /\ (rg_seq (rg_new seq) <= a)%N).
  { exists seq. rewrite in_app_iff. cbn. split; auto. lia. }
  destruct (rd_cur s) as [c|] eqn:Ec.
  - assert (Lc : (rg_seq c < seq)%N) by (apply Sm; left; auto).
    destruct (N.ltb_spec seq (rg_seq c)); [lia|]. cbn [fst]. destruct C as [K A].
    destruct (insert_last (rg_seq c) (rg_new seq) (rd_pending s)) as [Ei As]; auto.
    { intros h Hh. apply Sm. right; auto. }
    split; rewrite ?played_snoc, ?arrivals_snoc, ?E1, ?E2, ?app_nil_r; cbn [rd_cur rd_pending]; auto.
    + rewrite Ei. split; auto.
    + intros g Hg. rewrite Ei in Hg. apply in_app_iff in Hg as [Hg|[<-|[]]]; auto. apply consecutive_new.
    + intros g [<-|Hg]; [apply S'; left; auto|]. rewrite Ei in Hg. apply in_app_iff in Hg as [Hg|[<-|[]]]; auto. apply S'. right; auto.
  - cbn [fst]. rewrite C. split; rewrite ?played_snoc, ?arrivals_snoc, ?E1, ?E2, ?app_nil_r; cbn [rd_cur rd_pending]; auto.
    + split; [|exact I]. exists 0. split; [apply consecutive_new|]. cbn [rg_new rg_seq]. unfold last_is.
      destruct (rev (played tr)) as [|f r] eqn:Er; auto. left. split; auto.
      destruct (L f) as (a & Ha & La); [rewrite in_rev, Er; left; auto|]. specialize (Lt a Ha). lia.
    + intros g [].
    + intros g [<-|[]]. auto.
Qed.

Lemma increasing_snoc l a : increasing_seqs (l ++ [a]) -> increasing_seqs l /\ forall b, In b l -> (b < a)%N.
Proof.
  induction l as [|x l IH]; cbn; [intros _; split; auto; intros b []|]. intros [H I]. destruct (IH I) as [I' B]. split.
  - split; auto. intros b Hb. apply H. apply in_app_iff; auto.
  - intros b [<-|Hb]; auto. apply H. apply in_app_iff. right. left. auto.
Qed.

Lemma rstep_inv s tr o s' x : rinv s tr -> rstep s o = (s', x) -> increasing_seqs (arrivals (tr ++ [(o, x)])) ->
  x = RHang \/ rinv s' (tr ++ [(o, x)]).
Proof.
  intros I H Inc. destruct o as [d|fuel cur next bufs]; cbn [rstep] in H.
  - injection H as <- <-. right. apply rinv_silent; [|split; reflexivity]. destruct I as [O C P L S]. split; auto.
  - destruct (duration_max <? rd_max s + rd_lat s)%N.
    { injection H as <- <-. right. apply rinv_silent; auto. split; reflexivity. }
    set (cutoff := (rd_max s + rd_lat s)%N) in H.
    assert (Rest : select_rest fuel cutoff s next bufs = (s', x) -> x = RHang \/ rinv s' (tr ++ [(RPoll fuel cur next bufs, x)])).
    { clear H. intros H. unfold select_rest in H.
      assert (B : (let (s, x) := buffering fuel cutoff s bufs in
         match x, rd_cur s, next, rd_pending s with RWait, None, NEnd, [] => (s, REnd) | _, _, _, _ => (s, x) end) = (s', x) ->
         x = RHang \/ rinv s' (tr ++ [(RPoll fuel cur next bufs, x)])).
      { clear H. intros H. destruct (buffering fuel cutoff s bufs) as [s1 x1] eqn:E.
        destruct (buffering_inv _ _ _ _ _ _ _ I E) as [->|[[-> I1]|(ts & -> & I1)]].
        - injection H as <- <-. auto.
        - right. assert (s' = s1 /\ (x = REnd \/ x = RWait)) as [-> Ex].
          { destruct (rd_cur s1); [injection H as <- <-; auto|]. destruct next; try (injection H as <- <-; auto; fail).
            destruct (rd_pending s1); injection H as <- <-; auto. }
          apply rinv_silent; auto. destruct Ex as [->| ->]; split; reflexivity.
        - injection H as <- <-. right. apply I1. }
      destruct next as [seq| | |]; auto.
      - right. assert (x = RArrived seq) as ->.
        { destruct (rd_cur s) as [c|]; [destruct (seq <? rg_seq c)%N|]; injection H as <- <-; reflexivity. }
        rewrite arrivals_snoc in Inc. apply increasing_snoc in Inc as [_ B'].
        change s' with (fst (s', RArrived seq)). eapply rinv_arrive; [exact I|exact B'| | |exact H]; reflexivity.
      - injection H as <- <-. right. apply rinv_silent; auto. split; reflexivity. }
    destruct (rd_cur s) as [g|] eqn:Ec; auto.
    assert (Play : forall f g' m, rf_seq f = rg_seq g -> rg_seq g' = rg_seq g ->
      (forall k, consecutive g k -> rf_idx f = k /\ consecutive g' (S k)) ->
      rinv (Rd (Some g') (rd_pending s) m (rd_lat s)) (tr ++ [(RPoll fuel cur next bufs, RGot f)])).
    { intros f g' m Sf Sg Hk. destruct I as [O C P L Sn]. rewrite Ec in *. destruct C as [(k & K & La) A].
      destruct (Hk k K) as [Ek K']. split; rewrite ?played_snoc, ?arrivals_snoc; cbn [played arrivals flat_map app]; rewrite ?app_nil_r; cbn [rd_cur rd_pending]; auto.
      - eapply order_snoc; eauto. rewrite Sf. auto.
      - rewrite Sg. split; auto. exists (S k). split; auto. rewrite <- Ek. apply last_snoc. auto.
      - intros f0 Hf. apply in_app_iff in Hf as [Hf|[<-|[]]]; auto. rewrite Sf. apply Sn. left; auto.
      - intros h [<-|Hh]; [rewrite Sg; apply Sn; left; auto|apply Sn; right; auto]. }
    destruct (rg_buf g) as [|f rest] eqn:Eb.
    + destruct cur as [ts| | |]; auto.
      * injection H as <- <-. right. apply Play; auto. intros k [K1 K2]. rewrite Eb in K1. cbn in K1. cbn. split; [lia|].
        split; cbn; rewrite Eb; cbn; [lia|]. intros [|i] f; discriminate.
      * injection H as <- <-. right. apply rinv_pop; auto. { congruence. } split; reflexivity.
      * injection H as <- <-. right. apply rinv_silent; auto. split; reflexivity.
    + injection H as <- <-. right.
      destruct I as [O C P L Sn]. rewrite Ec in *. pose proof C as [(k0 & [_ K0] & _) _].
      destruct (K0 0 f) as [Sf _]; [rewrite Eb; reflexivity|]. apply Play; auto.
      intros k [K1 K2]. rewrite Eb in K1, K2. destruct (K2 0 f eq_refl) as [_ K3]. cbn in K1. split; [lia|].
      split; cbn; [lia|]. intros i f0 Hf. destruct (K2 (S i) f0 Hf) as [A B]. split; auto. lia.
Qed.

Lemma rrun_snoc s ops o :
  rrun s (ops ++ [o]) = let (s1, tr) := rrun s ops in let (s2, x) := rstep s1 o in (s2, tr ++ [(o, x)]).
Proof.
  revert s; induction ops as [|p ops IH]; intros s; cbn [app rrun].
  - destruct (rstep s o). reflexivity.
  - destruct (rstep s p) as [s1 x]. rewrite IH. destruct (rrun s1 ops) as [s2 tr].
    destruct (rstep s2 o). reflexivity.
Qed.

Lemma rinv_run ops : forall s tr, rrun rd_new ops = (s, tr) -> increasing_seqs (arrivals tr) -> ~ In RHang (map snd tr) ->
  rinv s tr.
Proof.
  induction ops as [|o ops IH] using rev_ind; intros s tr H Inc NH.
  - cbn in H. injection H as <- <-. apply rinv_new.
  - rewrite rrun_snoc in H. destruct (rrun rd_new ops) as [s1 tr1]. destruct (rstep s1 o) as [s2 x] eqn:E.
    injection H as <- <-. rewrite map_app in NH. 
    assert (I : rinv s1 tr1).
    { apply IH; auto.
      - rewrite arrivals_snoc in Inc. destruct (arrivals [(o, x)]) as [|a [|b l]] eqn:Ea.
        + rewrite app_nil_r in Inc. auto.
        + apply increasing_snoc in Inc. apply Inc.
        + cbn in Ea. destruct x; discriminate.
      - intros Hi. apply NH. apply in_app_iff. auto. }
    destruct (rstep_inv _ _ _ _ _ I E Inc) as [->|I']; auto.
    exfalso. apply NH. apply in_app_iff. right. left. reflexivity.
Qed.

Lemma playback_order ops s tr : rrun rd_new ops = (s, tr) -> increasing_seqs (arrivals tr) ->
  ~ In RHang (map snd (removelast tr)) -> in_playback_order (played tr).
Proof.
  intros H Inc NH. destruct ops as [|o ops _] using rev_ind.
  { cbn in H. injection H as <- <-. split; cbn; auto. }
  rewrite rrun_snoc in H. destruct (rrun rd_new ops) as [s1 tr1] eqn:E1. destruct (rstep s1 o) as [s2 x] eqn:E.
  injection H as <- <-. rewrite removelast_last in NH.
  assert (I : rinv s1 tr1).
  { apply (rinv_run ops); auto. rewrite arrivals_snoc in Inc. destruct (arrivals [(o, x)]) as [|a [|b l]] eqn:Ea.
    + rewrite app_nil_r in Inc. auto.
    + apply increasing_snoc in Inc. apply Inc.
    + cbn in Ea. destruct x; discriminate. }
  destruct (rstep_inv _ _ _ _ _ I E Inc) as [->|I']; [|apply I'].
  rewrite played_snoc. cbn. rewrite app_nil_r. apply I.
Qed.

(** * Pending groups never hold anything *)
Definition fresh (g : rgroup) : Prop := rg_buf g = [] /\ rg_max g = None /\ rg_index g = 0.

Lemma fresh_new seq : fresh (rg_new seq).
Proof. repeat split. Qed.

Lemma fresh_poll fuel cutoff g env : fresh g ->
  (exists ts env', env = FFrame ts :: env' /\ (ts < cutoff)%N /\ fst (buffer_until fuel cutoff g env) = BLoop) \/
  (exists ts env' g', env = FFrame ts :: env' /\ (cutoff <= ts)%N /\ (1 < fuel -> buffer_until fuel cutoff g env = (BReady ts, g'))) \/
  ((forall ts env', env <> FFrame ts :: env') /\ (0 < fuel -> buffer_until fuel cutoff g env = (BWait, g))).
Proof.
  intros (B & M & I). assert (NR : ~ reached cutoff g) by (unfold reached; rewrite M; auto).
  destruct env as [|[ts| | |] env].
  1, 3, 4, 5: right; right; split; [congruence|]; intros F; destruct fuel; [lia|];
    destruct (reached_dec cutoff g) as [[R _]|[_ E]]; [contradiction|]; rewrite E, B; reflexivity.
  destruct (N.lt_ge_cases ts cutoff) as [L|L].
  - left. exists ts, env. repeat split; auto. destruct fuel as [|fuel]; [reflexivity|].
    destruct (reached_dec cutoff g) as [[R _]|[_ E]]; [contradiction|]. rewrite E, B. cbn [rg_frame].
    apply buffer_spins; [|cbn; rewrite B; discriminate]. unfold reached. cbn. rewrite M. lia.
  - right. left. exists ts, env, (RG (rg_seq g) 1 [RFrame (rg_seq g) 0 ts] (Some ts)). repeat split; auto.
    intros F. destruct fuel as [|[|fuel]]; try lia.
    destruct (reached_dec cutoff g) as [[R _]|[_ E]]; [contradiction|]. rewrite E, B. cbn [rg_frame].
    set (g1 := with_buf _ _). assert (E1 : g1 = RG (rg_seq g) 1 [RFrame (rg_seq g) 0 ts] (Some ts)).
    { unfold g1, with_buf. cbn. rewrite B, M, I. destruct ts; reflexivity. }
    rewrite E1. cbn [buffer_until rg_max]. rewrite (proj2 (N.leb_le _ _) L). reflexivity.
Qed.

Lemma fresh_wait fuel cutoff g env g' : fresh g -> buffer_until fuel cutoff g env = (BWait, g') -> g' = g.
Proof.
  intros F H. assert (NB : BWait <> BLoop) by discriminate.
  destruct (fresh_poll fuel cutoff g env F) as [(ts & env' & _ & _ & E)|[(ts & env' & g1 & -> & L & E)|(_ & E)]].
  - rewrite H in E. discriminate.
  - destruct fuel as [|[|fuel]]; [discriminate| |rewrite E in H by lia; discriminate].
    destruct F as (B & M & I). cbn in H. rewrite M, B in H. discriminate.
  - destruct fuel; [discriminate|]. rewrite E in H by lia. congruence.
Qed.

Lemma pop_pending s g : In g (rd_pending (pop s)) -> In g (rd_pending s).
Proof. unfold pop. destruct (rd_pending s); cbn; auto. Qed.

Lemma insert_in g h l : In h (insert_pending g l) -> h = g \/ In h l.
Proof.
  induction l as [|x l IH]; cbn; [intuition|]. destruct (rg_seq x <? rg_seq g)%N; cbn; [|intuition].
  intros [->|H]; auto. destruct (IH H); auto.
Qed.

Lemma buffering_fresh fuel cutoff bufs : forall s s' x, (forall g, In g (rd_pending s) -> fresh g) ->
  buffering fuel cutoff s bufs = (s', x) -> x <> RHang -> forall g, In g (rd_pending s') -> fresh g.
Proof.
  induction bufs as [|[i env] bufs IH]; intros s s' x F H NH; cbn [buffering] in H.
  - injection H as <- <-. auto.
  - destruct (nth_error (rd_pending s) i) as [g|] eqn:Hi; [|eapply IH; eauto].
    destruct (buffer_until fuel cutoff g env) as [b g'] eqn:Eb.
    assert (Fg : fresh g) by (apply F; eapply nth_error_In; eauto).
    destruct b as [ts| |].
    + injection H as <- <-. cbn [rd_pending]. clear - F Hi. intros h Hh. apply F.
      unfold pop in Hh. cbn [rd_pending] in Hh.
      assert (E : skipn i (set_nth i g' (rd_pending s)) = g' :: skipn (S i) (rd_pending s)).
      { clear - Hi. revert i Hi. induction (rd_pending s) as [|y l IH]; intros [|i] Hi; cbn in *; try discriminate; auto. }
      rewrite E in Hh. cbn in Hh. eapply (in_skipn (S i)). exact Hh.
    + eapply IH; [|exact H|exact NH]. cbn [rd_pending]. rewrite (fresh_wait _ _ _ _ _ Fg Eb).
      rewrite set_nth_same by auto. auto.
    + injection H as <- <-. congruence.
Qed.

Lemma rstep_fresh s o s' x : (forall g, In g (rd_pending s) -> fresh g) -> rstep s o = (s', x) -> x <> RHang ->
  forall g, In g (rd_pending s') -> fresh g.
Proof.
  intros F H NH. destruct o as [d|fuel cur next bufs]; cbn [rstep] in H.
  - injection H as <- <-. auto.
  - destruct (duration_max <? rd_max s + rd_lat s)%N; [injection H as <- <-; auto|].
    set (cutoff := (rd_max s + rd_lat s)%N) in H.
    assert (Rest : select_rest fuel cutoff s next bufs = (s', x) -> forall g, In g (rd_pending s') -> fresh g).
    { clear H. intros H. unfold select_rest in H.
      assert (B : (let (s, x) := buffering fuel cutoff s bufs in
         match x, rd_cur s, next, rd_pending s with RWait, None, NEnd, [] => (s, REnd) | _, _, _, _ => (s, x) end) = (s', x) ->
         forall g, In g (rd_pending s') -> fresh g).
      { clear H. intros H. destruct (buffering fuel cutoff s bufs) as [s1 x1] eqn:E.
        assert (s' = s1 /\ (x = x1 \/ (x = REnd /\ x1 = RWait))) as [-> Ex].
        { destruct x1; try (injection H as <- <-; auto; fail). destruct (rd_cur s1); [injection H as <- <-; auto|].
          destruct next; try (injection H as <- <-; auto; fail). destruct (rd_pending s1); injection H as <- <-; auto. }
        eapply buffering_fresh; eauto. destruct Ex as [<-|[_ ->]]; [auto|discriminate]. }
      destruct next as [seq| | |]; auto.
      - destruct (rd_cur s) as [c|]; [destruct (seq <? rg_seq c)%N|]; injection H as <- <-; cbn [rd_pending]; auto.
        intros g Hg. apply insert_in in Hg as [->|Hg]; auto. apply fresh_new.
      - injection H as <- <-. auto. }
    destruct (rd_cur s) as [g|]; auto. destruct (rg_buf g) as [|f rest].
    + destruct cur as [ts| | |]; auto; injection H as <- <-; auto.
      intros h Hh. apply F. apply pop_pending; auto.
    + injection H as <- <-. auto.
Qed.

Lemma pending_fresh ops : forall s tr, rrun rd_new ops = (s, tr) -> ~ In RHang (map snd tr) ->
  forall g, In g (rd_pending s) -> fresh g.
Proof.
  induction ops as [|o ops IH] using rev_ind; intros s tr H NH.
  - cbn in H. injection H as <- <-. intros g [].
  - rewrite rrun_snoc in H. destruct (rrun rd_new ops) as [s1 tr1]. destruct (rstep s1 o) as [s2 x] eqn:E.
    injection H as <- <-. rewrite map_app in NH.
    eapply rstep_fresh; [eapply IH; eauto| exact E|].
    + intros Hi. apply NH. apply in_app_iff. auto.
    + intros ->. apply NH. apply in_app_iff. right. left. reflexivity.
Qed.

(** So what a poll of a pending group does is decided by its first frame. *)
Lemma first_frame_decides ops s tr fuel g i env : rrun rd_new ops = (s, tr) -> ~ In RHang (map snd tr) ->
  rd_cur s = Some g -> rg_buf g = [] -> (rd_max s + rd_lat s <= duration_max)%N -> i < length (rd_pending s) -> 1 < fuel ->
  snd (rstep s (RPoll fuel FWait NWait [(i, env)])) =
  match env with
  | FFrame ts :: _ => if (ts <? rd_max s + rd_lat s)%N then RHang else RSkip ts
  | _ => RWait
  end.
Proof.
  intros H NH Ec Eb Lm Li Lf. destruct (nth_error (rd_pending s) i) as [h|] eqn:Hi; [|apply nth_error_None in Hi; lia].
  assert (Fh : fresh h) by (eapply pending_fresh; eauto; eapply nth_error_In; eauto).
  cbn [rstep]. rewrite (proj2 (N.ltb_ge _ _) Lm), Ec, Eb. unfold select_rest. cbn [buffering]. rewrite Hi.
  destruct (fresh_poll fuel (rd_max s + rd_lat s) h env Fh) as [(ts & env' & -> & L & E)|[(ts & env' & g1 & -> & L & E)|(N & E)]].
  - destruct (buffer_until _ _ _ _) as [b g1]. cbn in E. subst b. rewrite (proj2 (N.ltb_lt _ _) L). reflexivity.
  - rewrite E by lia. rewrite (proj2 (N.ltb_ge _ _) L). cbn [rd_cur]. reflexivity.
  - rewrite E by lia. cbn [rd_cur rd_pending]. rewrite Ec. cbn. destruct env as [|[ts| | |] env]; auto. destruct (N ts env); auto.
Qed.

(** * Panics *)
Definition env_below (T : N) (env : list fans) : Prop := Forall (fun a => match a with FFrame ts => (ts <= T)%N | _ => True end) env.
Definition op_below (T L : N) (o : rop) : Prop :=
  match o with
  | RLatency d => (d <= L)%N
  | RPoll _ cur _ bufs => env_below T [cur] /\ Forall (fun b => env_below T (snd b)) bufs
  end.
Definition buf_below (T : N) (g : rgroup) : Prop := Forall (fun f => (rf_ts f <= T)%N) (rg_buf g).
Record rbelow (T L : N) (s : reader) : Prop := {
  rb_max : (rd_max s <= T)%N; rb_lat : (rd_lat s <= L)%N;
  rb_cur : match rd_cur s with Some g => buf_below T g | None => True end;
  rb_pending : Forall (buf_below T) (rd_pending s) }.

Lemma buffer_below T fuel cutoff : forall g env b g', buffer_until fuel cutoff g env = (b, g') -> buf_below T g -> env_below T env ->
  buf_below T g'.
Proof.
  induction fuel as [|fuel IH]; intros g env b g' H B E; cbn [buffer_until] in H.
  - injection H as <- <-. auto.
  - destruct (match rg_max g with Some m => if (cutoff <=? m)%N then Some m else None | None => None end).
    { injection H as <- <-. auto. }
    destruct (rg_buf g) as [|f rest] eqn:Eb.
    + destruct env as [|[ts| | |] env]; try (injection H as <- <-; auto; fail). cbn [rg_frame] in H.
      apply IH in H; auto.
      * unfold buf_below, with_buf. cbn. rewrite Eb. constructor; auto. cbn. apply (Forall_inv E).
      * apply (Forall_inv_tail E).
    + apply IH in H; auto. unfold buf_below in *. cbn. rewrite Eb in B. apply Forall_app. split; [apply (Forall_inv_tail B)|].
      constructor; auto. apply (Forall_inv B).
Qed.

Lemma Forall_set_nth {A} (P : A -> Prop) n x l : P x -> Forall P l -> Forall P (set_nth n x l).
Proof. intros H F. revert n. induction F; intros [|n]; cbn; auto. Qed.
Lemma Forall_skipn {A} (P : A -> Prop) n l : Forall P l -> Forall P (skipn n l).
Proof. intros F. rewrite <- (firstn_skipn n l) in F. apply Forall_app in F. tauto. Qed.

Lemma pop_below T L s : rbelow T L s -> rbelow T L (pop s).
Proof.
  intros [M La C P]. unfold pop. destruct (rd_pending s) as [|g l]; split; cbn; auto.
  - apply (Forall_inv P).
  - apply (Forall_inv_tail P).
Qed.

Lemma buffering_below T L fuel cutoff bufs : forall s s' x, rbelow T L s -> Forall (fun b => env_below T (snd b)) bufs ->
  buffering fuel cutoff s bufs = (s', x) -> rbelow T L s'.
Proof.
  induction bufs as [|[i env] bufs IH]; intros s s' x B E H; cbn [buffering] in H.
  - injection H as <- <-. auto.
  - pose proof (Forall_inv E) as E1. pose proof (Forall_inv_tail E) as E2.
    destruct (nth_error (rd_pending s) i) as [g|] eqn:Hi; [|eapply IH; eauto].
    destruct (buffer_until fuel cutoff g env) as [b g'] eqn:Eb.
    destruct B as [M La C P].
    assert (Bg : buf_below T g').
    { eapply buffer_below; eauto. rewrite Forall_forall in P. apply P. eapply nth_error_In; eauto. }
    destruct b as [ts| |].
    + injection H as <- <-. apply pop_below. split; cbn; auto. apply Forall_skipn, Forall_set_nth; auto.
    + eapply IH; [|exact E2|exact H]. split; cbn; auto. apply Forall_set_nth; auto.
    + injection H as <- <-. split; cbn; auto. apply Forall_set_nth; auto.
Qed.

Lemma rstep_below T L s o s' x : rbelow T L s -> op_below T L o -> (T + L <= duration_max)%N -> rstep s o = (s', x) ->
  x <> RPanics /\ rbelow T L s'.
Proof.
  intros B O Lm H. pose proof B as [M La C P]. destruct o as [d|fuel cur next bufs]; cbn [rstep] in H.
  - injection H as <- <-. split; [discriminate|]. split; auto.
  - destruct O as [Oc Ob]. apply Forall_inv in Oc. destruct (N.ltb_spec duration_max (rd_max s + rd_lat s)); [lia|].
    set (cutoff := (rd_max s + rd_lat s)%N) in H.
    assert (Rest : select_rest fuel cutoff s next bufs = (s', x) -> x <> RPanics /\ rbelow T L s').
    { clear H H0. intros H. unfold select_rest in H.
      assert (Q : (let (s, x) := buffering fuel cutoff s bufs in
         match x, rd_cur s, next, rd_pending s with RWait, None, NEnd, [] => (s, REnd) | _, _, _, _ => (s, x) end) = (s', x) ->
         x <> RPanics /\ rbelow T L s').
      { clear H. intros H. destruct (buffering fuel cutoff s bufs) as [s1 x1] eqn:E.
        pose proof (buffering_below _ _ _ _ _ _ _ _ B Ob E) as B1.
        assert (N1 : x1 <> RPanics).
        { clear - E. clearbody cutoff. revert s E. induction bufs as [|[i env] bufs IH]; intros s E; cbn [buffering] in E; [congruence|].
          destruct (nth_error _ _); [|eauto]. destruct (buffer_until _ _ _ _) as [[ts| |] g']; [congruence|eauto|congruence]. }
        assert (s' = s1 /\ (x = x1 \/ x = REnd)) as [-> Ex].
        { destruct x1; try (injection H as <- <-; auto; fail). destruct (rd_cur s1); [injection H as <- <-; auto|].
          destruct next; try (injection H as <- <-; auto; fail). destruct (rd_pending s1); injection H as <- <-; auto. }
        split; auto. destruct Ex as [->| ->]; [auto|discriminate]. }
      destruct next as [seq| | |]; auto.
      - assert (x = RArrived seq /\ rbelow T L s') as [-> B'].
        { destruct (rd_cur s) as [c|] eqn:Ec; [destruct (seq <? rg_seq c)%N|]; injection H as <- <-; split; auto.
          - split; cbn; auto. apply Forall_forall. intros h Hh. apply insert_in in Hh as [->|Hh].
            + constructor.
            + rewrite Forall_forall in P. auto.
          - split; cbn; auto. constructor. }
        split; [discriminate|auto].
      - injection H as <- <-. split; [discriminate|auto]. }
    destruct (rd_cur s) as [g|] eqn:Ec; auto. destruct (rg_buf g) as [|f rest] eqn:Eb.
    + destruct cur as [ts| | |]; auto; injection H as <- <-; (split; [discriminate|]); auto.
      * split; cbn; auto.
      * apply pop_below; auto.
    + injection H as <- <-. split; [discriminate|]. unfold buf_below in C. rewrite Eb in C. split; cbn; auto.
      * apply (Forall_inv C).
      * apply (Forall_inv_tail C).
Qed.

Lemma no_panic T L ops : (T + L <= duration_max)%N -> Forall (op_below T L) ops ->
  ~ In RPanics (map snd (snd (rrun rd_new ops))).
Proof.
  intros Lm. assert (G : forall ops s, rbelow T L s -> Forall (op_below T L) ops -> ~ In RPanics (map snd (snd (rrun s ops)))).
  { clear ops. induction ops as [|o ops IH]; intros s B O; cbn; auto.
    destruct (rstep s o) as [s1 x] eqn:E. destruct (rstep_below _ _ _ _ _ _ B (Forall_inv O) Lm E) as [N B1].
    specialize (IH s1 B1 (Forall_inv_tail O)). destruct (rrun s1 ops) as [s2 tr]. cbn in *. intros [H|H]; auto. }
  apply G. split; cbn; auto; lia.
Qed.
