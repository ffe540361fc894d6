(** The GStreamer source. *)
From Coq Require Import NArith Arith List Lia Bool.
From Coq Require Import Init.Byte Strings.Byte.
From Verif.Model Require Import Base Map FrameSys Media Codec GstSource.
From Verif.Spec Require Import GstSourceSpec.
From Verif.Proofs Require Import MapP TableP.
Import ListNotations.
Open Scope N_scope.

Lemma grun_snoc ops : forall s o, grun s (ops ++ [o]) =
  let (s', tr) := grun s ops in let (s'', x) := gstep s' o in (s'', tr ++ [(o, x)]).
Proof.
  induction ops as [|p ops IH]; intros s o; cbn.
  - destruct (gstep s o); reflexivity.
  - destruct (gstep s p) as [s1 x1]. rewrite IH. destruct (grun s1 ops) as [s2 tr]. destruct (gstep s2 o). reflexivity.
Qed.

(** Task [k] after the frames [fs] with the buffers [bs]. *)
Definition made (v : bool) (fs : list mframe) (bs : list (N * bool * bytes)) (r : option N) : Prop :=
  match fs with
  | [] => bs = [] /\ r = None
  | f :: fs' => r = Some (mf_ts f) /\
     exists b bs', bs = b :: bs' /\ b = (mf_ts f mod 2 ^ 64, (v && negb (mf_key f))%bool, mf_data f) /\
     Forall2 (fun f' b' => mf_ts f <= mf_ts f' /\ b' = ((mf_ts f' - mf_ts f) mod 2 ^ 64, (v && negb (mf_key f'))%bool, mf_data f')) fs' bs'
  end.

Lemma frames_snoc k tr e : frames k (tr ++ [e]) = frames k tr ++ frames k [e].
Proof. unfold frames. apply flat_map_app. Qed.
Lemma buffers_snoc k tr e : buffers k (tr ++ [e]) = buffers k tr ++ buffers k [e].
Proof. unfold buffers. apply flat_map_app. Qed.

Lemma tasks_run vs ops s tr : grun (src_new vs) ops = (s, tr) ->
  forall k v, nth_error vs k = Some v -> exists t, nth_error (sr_tasks s) k = Some t /\ tk_video t = v /\
    made v (frames k tr) (buffers k tr) (tk_ref t).
Proof.
  revert s tr. induction ops as [|o ops IH] using rev_ind; intros s tr R k v K.
  - cbn in R. injection R as <- <-. exists (Task v None false). cbn. rewrite nth_error_map, K. repeat split.
  - rewrite grun_snoc in R. destruct (grun (src_new vs) ops) as [s1 tr1]. destruct (gstep s1 o) as [s2 x] eqn:G.
    injection R as <- <-. destruct (IH _ _ eq_refl k v K) as (t & T & V & M). rewrite frames_snoc, buffers_snoc.
    destruct o as [j a|]; cbn in G.
    + destruct (nth_error (sr_tasks s1) j) as [u|] eqn:J.
      2:{ injection G as <- <-. exists t. cbn. destruct a; rewrite !app_nil_r; auto. }
      destruct (tk_over u).
      { injection G as <- <-. exists t. cbn. destruct a; rewrite !app_nil_r; auto. }
      destruct (turn u a) as [u' e] eqn:U. injection G as <- <-. cbn [sr_tasks].
      destruct (Nat.eq_dec j k) as [->|NE].
      * rewrite T in J. injection J as <-. exists u'.
        split; [apply nth_error_set_eq; apply nth_error_Some; congruence|].
        destruct a as [f| |]; cbn in U.
        -- destruct (tk_ref t) as [r|] eqn:RF.
           ++ destruct (N.ltb_spec (mf_ts f) r); injection U as <- <-.
              ** cbn. rewrite !app_nil_r. auto.
              ** cbn. rewrite Nat.eqb_refl, ?RF. split; [exact V|]. unfold made in *.
                 destruct (frames k tr1) as [|f0 fs]; [destruct M; discriminate|].
                 destruct M as ([= ->] & b & bs' & -> & Hb & F). cbn. split; [reflexivity|].
                 exists b, (bs' ++ [((mf_ts f - mf_ts f0) mod 2 ^ 64, (tk_video t && negb (mf_key f))%bool, mf_data f)]).
                 split; [reflexivity|]. split; [exact Hb|]. apply Forall2_app; [exact F|]. repeat constructor; [exact H|]. rewrite V. reflexivity.
           ++ injection U as <- <-. cbn. rewrite Nat.eqb_refl. split; [exact V|]. unfold made in *.
              destruct (frames k tr1) as [|f0 fs]; [|destruct M; discriminate]. destruct M as [-> _]. cbn. split; [reflexivity|].
              do 2 eexists. split; [reflexivity|]. rewrite V. split; [reflexivity|constructor].
        -- injection U as <- <-. cbn. rewrite !app_nil_r. auto.
        -- injection U as <- <-. cbn. rewrite !app_nil_r. auto.
      * exists t. rewrite nth_error_set_ne by congruence. split; [exact T|]. split; [exact V|].
        assert (E : Nat.eqb j k = false) by (apply Nat.eqb_neq; exact NE).
        destruct a as [f| |]; cbn [frames buffers flat_map].
        -- cbn in U. destruct (tk_ref u); [destruct (mf_ts f <? n)|]; injection U as <- <-; cbn; rewrite ?E; cbn; rewrite !app_nil_r; exact M.
        -- cbn in U. injection U as <- <-. cbn. rewrite !app_nil_r. exact M.
        -- cbn in U. injection U as <- <-. cbn. rewrite !app_nil_r. exact M.
    + injection G as <- <-. exists t. cbn. rewrite !app_nil_r. auto.
Qed.

Lemma no_eos s ops s' tr : grun s ops = (s', tr) -> forall e, In e tr -> ~ In EEos (snd e).
Proof.
  revert s s' tr. induction ops as [|o ops IH]; intros s s' tr R e I.
  - cbn in R. injection R as <- <-. contradiction.
  - cbn in R. destruct (gstep s o) as [s1 x] eqn:G. destruct (grun s1 ops) as [s2 tr2] eqn:R2. injection R as <- <-.
    destruct I as [<-|I]; [|exact (IH _ _ _ R2 e I)]. cbn. destruct o as [k a|]; cbn in G.
    + destruct (nth_error (sr_tasks s) k) as [t|]; [|injection G as <- <-; intros [H|[]]; discriminate].
      destruct (tk_over t); [injection G as <- <-; intros [H|[]]; discriminate|].
      destruct (turn t a) as [t' x'] eqn:T. injection G as <- <-. destruct a as [f| |]; cbn in T.
      * destruct (tk_ref t); [destruct (mf_ts f <? n)|]; injection T as <- <-; intros [H|[]]; discriminate.
      * injection T as <- <-. intros [H|[]]; discriminate.
      * injection T as <- <-. intros [H|[]]; discriminate.
    + injection G as <- <-. intros [].
Qed.

(** ** The pads *)
Lemma existsb_str n l : existsb (str_eqb n) l = true <-> In n l.
Proof.
  rewrite existsb_exists. split.
  - intros (x & I & E). destruct (str_eqb_spec n x); [subst; exact I|discriminate].
  - intros I. exists n. split; [exact I|apply str_eqb_refl].
Qed.
Lemma pads_exact tracks : forall pads r, NoDup pads -> make_pads tracks pads = Val r <->
  Forall (fun t => handled (snd t) = true) tracks /\ NoDup (pads ++ map fst tracks) /\ r = pads ++ map fst tracks.
Proof.
  induction tracks as [|[n c] tracks IH]; intros pads r ND; cbn.
  - rewrite app_nil_r. split; [intros [= <-]; auto|]. intros (_ & _ & ->). reflexivity.
  - destruct (handled c) eqn:H; cbn [negb].
    + destruct (existsb (str_eqb n) pads) eqn:E.
      * apply existsb_str in E. split; [discriminate|]. intros (_ & N & _). exfalso. apply NoDup_remove_2 in N. apply N, in_or_app. left. exact E.
      * assert (NI : ~ In n pads) by (rewrite <- existsb_str; congruence).
        rewrite IH.
        -- rewrite <- app_assoc. cbn. split; [intros (F & N & R); auto|]. intros (F & N & R). inversion F; auto.
        -- rewrite <- (app_nil_r (pads ++ [n])), <- app_assoc. cbn. apply NoDup_Add with (a := n) (l := pads); [|auto].
           pose proof (Add_app n pads []) as A. rewrite app_nil_r in A. exact A.
    + split; [discriminate|]. intros (F & _). inversion F; subst. cbn in *. congruence.
Qed.
