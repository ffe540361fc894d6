(** C151, C152: the GStreamer sink. *)
From Coq Require Import NArith List Bool.
From Coq Require Import Init.Byte Strings.Byte.
From Verif.Model Require Import Base Import Sink.
From Verif.Spec Require Import ImportSpec SinkSpec.
From Verif.Proofs Require Import ImportP SinkP.
From Verif.Properties Require Import Import.
Import ListNotations.
Open Scope N_scope.

(** C151: each start publishes what importing the buffers given since then gives, and only the bytes count, not the
    buffers. *)
Theorem C151_content : forall dec m w ops s tr, skrun dec m w sink_new ops = (s, tr) -> ~ panicked tr ->
  sk_casts s = map (fun cs => fst (feed dec m w cs imp_new)) (fed tr) /\ forall cs, In cs (fed tr) -> exists r, snd (feed dec m w cs imp_new) = POk r.
Proof. intros dec m w ops s tr R. exact (content dec m w ops s tr R). Qed.
Print Assumptions C151_content.
Theorem C151_bytes : forall dec m w ops s tr ops' s' tr', stable dec -> skrun dec m w sink_new ops = (s, tr) -> skrun dec m w sink_new ops' = (s', tr') ->
  ~ panicked tr -> ~ panicked tr' -> map (@concat _) (fed tr) = map (@concat _) (fed tr') -> sk_casts s = sk_casts s'.
Proof.
  intros dec m w ops s tr ops' s' tr' St R R' N N' E.
  rewrite (proj1 (content dec m w ops s tr R N)), (proj1 (content dec m w ops' s' tr' R' N')). revert E. generalize (fed tr) (fed tr').
  induction l as [|c l IH]; intros [|c' l'] E; try discriminate; [reflexivity|]. injection E as E1 E2. cbn [map]. f_equal; [|auto].
  rewrite (feed_chunks dec m w c c' St E1). reflexivity.
Qed.
Print Assumptions C151_bytes.
(** Also up to a panic, and nothing is changed afterwards. *)
Theorem C151_failed : forall dec m w ops s tr tr1 op tr2, skrun dec m w sink_new ops = (s, tr) -> tr = tr1 ++ (op, KPosted) :: tr2 -> ~ panicked tr1 ->
  sk_casts s = map (fun cs => fst (feed dec m w cs imp_new)) (fed_more tr1 op).
Proof. intros dec m w ops s tr tr1 op tr2 R E N. exact (proj1 (proj2 (content_failed dec m w ops s tr R tr1 op tr2 E N))). Qed.
Print Assumptions C151_failed.

(** C152: failures.  When the sink panics, exactly; it never starts, renders or stops again; and properties abort the
    program exactly after a start that panicked.  That a failed start can be repeated is false. *)
Theorem C152_panic_exact : forall dec m w ops s tr op, skrun dec m w sink_new ops = (s, tr) -> ~ panicked tr ->
  (snd (skstep dec m w s op) = KPosted <-> no_good dec m w tr op).
Proof. intros dec m w ops s tr op R. exact (panics dec m w ops s tr R op). Qed.
Print Assumptions C152_panic_exact.
Theorem C152_over : forall dec m w ops s tr tr1 op tr2 op2 x, skrun dec m w sink_new ops = (s, tr) -> tr = tr1 ++ (op, KPosted) :: tr2 -> ~ panicked tr1 ->
  In (op2, x) tr2 -> ~ is_property op2 -> x <> KOk /\ x <> KErr.
Proof. intros dec m w ops s tr tr1 op tr2 op2 x R E N. exact (proj2 (proj2 (content_failed dec m w ops s tr R tr1 op tr2 E N)) op2 x). Qed.
Print Assumptions C152_over.
Theorem C152_abort_exact : forall dec m w ops s tr op, skrun dec m w sink_new ops = (s, tr) -> is_property op ->
  (snd (skstep dec m w s op) = KAborted <-> start_panicked tr).
Proof. intros dec m w ops s tr op R. exact (aborts dec m w ops s tr R op). Qed.
Print Assumptions C152_abort_exact.
(** Starting without a URL, and then setting it. *)
Theorem C152_refuted : exists dec m w ops s tr u, skrun dec m w sink_new ops = (s, tr) /\ tr = [(KStart UReady, KPosted); (KUrl (Some u), KAborted)].
Proof. exists (iso_dec false toy_body), Release, 64, [KStart UReady; KUrl (Some [x75])]. eexists _, _, [x75]. split; reflexivity. Qed.
Print Assumptions C152_refuted.

(** A box in two buffers, another start, a bad box: it is over, but properties work. *)
Example C151_example :
  let r := skrun (iso_dec false toy_body) Debug 64 sink_new
    [KUrl (Some [x75]); KStart UInvalid; KStart UReady; KRender (Some (firstn 3 ftyp8)); KRender (Some (skipn 3 ftyp8 ++ [x00])); KStop; KStart UReady;
     KRender (Some ftyp8); KRender (Some mdat9); KRender (Some ftyp8); KStart UReady; KGet] in
  map snd (snd r) = [KOk; KErr; KOk; KOk; KOk; KOk; KOk; KOk; KPosted; KPosted; KPosted; KOk] /\
  sk_casts (fst r) = [iwith_buf imp_new [x00]; imp_new] /\ fed (snd r) = [[firstn 3 ftyp8; skipn 3 ftyp8 ++ [x00]]; [ftyp8]].
Proof. vm_compute. repeat split. Qed.
