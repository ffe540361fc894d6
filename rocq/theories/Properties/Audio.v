(** Properties C133-C139: audio in the browser, from the decoder to the loudspeaker. *)
From Coq Require Import NArith List Bool Arith Lia.
From Verif.Model Require Import Base Audio.
From Verif.Spec Require Import AudioSpec.
From Verif.Proofs Require Import AudioPlayP AudioSendP.
Import ListNotations.
Open Scope nat_scope.

(** * C133 *)
(** A decoded frame at the worklet's rate is posted to it at once, with all of its channels and samples and
    its time, and changes nothing else. *)
Theorem C133_unchanged : forall e a p rate d, playing p rate a -> ad_rate d = rate ->
  astep e a (ODecoded d) = (a, [(p, Sound (ad_planes d) (N.modulo (ad_time d) (2 ^ 64)))]).
Proof. exact proxied. Qed.
Print Assumptions C133_unchanged.

(** Whatever happens, nothing panics or hangs, and what is posted has samples, equally many in each channel. *)
Theorem C133_safe : forall e ops, even_engine e -> Forall decoded_whole ops ->
  au_dead (fst (arun e audio_new ops)) = false /\ Forall (fun y => proper (snd y)) (posts (snd (arun e audio_new ops))).
Proof. exact sane_run. Qed.
Print Assumptions C133_safe.

(** An engine that puts out what it was told and given last. *)
Definition teller : engine :=
  Engine (fun _ _ _ _ => true) (fun r => map (fun c => rs_to r :: rs_from r :: c) (last (rs_fed r) [])) [].
Definition chosen : list aop := [OWorklet (Some 7) 48000 true; OCatalog (Some 1) true].
Definition mono (rate time : N) (s : list sample) : aop := ODecoded (AudioData rate time (length s) [s]).
Definition stereo (rate time : N) (l r : list sample) : aop := ODecoded (AudioData rate time (length l) [l; r]).

Example C133_example :
  playing 7 48000 (fst (arun teller audio_new chosen)) /\
  posts (snd (arun teller audio_new (chosen ++ [stereo 48000 20 [1%N; 2%N] [3%N; 4%N]]))) = [(7, Sound [[1; 2]; [3; 4]]%N 20%N)].
Proof. split; [split; [reflexivity|]; split; [reflexivity|]; split; [discriminate|reflexivity]|vm_compute; reflexivity]. Qed.
(** Also when the channels of a resampler are cut short it puts out equally many. *)
Definition leveller : engine := Engine (fun _ _ _ _ => true) (fun r => map (fun c => firstn 1 (c ++ [0%N])) (last (rs_fed r) [])) [].
Example C133_safe_example : even_engine leveller /\ Forall decoded_whole (chosen ++ [stereo 44100 20 [1; 2] [3; 4]]%N).
Proof.
  split.
  - intros r. cbn [leveller en_out]. destruct (last (rs_fed r) []) as [|c cs]; [constructor|].
    assert (F : forall l : list (list sample), Forall (fun c => length c = 1) (map (fun c => firstn 1 (c ++ [0%N])) l)).
    { induction l as [|x l IH]; [constructor|]. cbn [map]. constructor; [|exact IH]. destruct x; reflexivity. }
    assert (E : out_length (map (fun c => firstn 1 (c ++ [0%N])) (c :: cs)) = 1) by (destruct c; reflexivity). rewrite E. apply F.
  - unfold chosen, stereo. repeat constructor.
Qed.

(** * C134 *)
(** The frames of a track in one format: the samples of each channel, one frame after the other, are cut into
    chunks of the size of the first frame, and what the resampler (from the track's rate to the worklet's)
    makes of them is posted, chunk after chunk.  Less than a chunk is left. *)
Theorem C134_resampled_partial : forall e p to from c d0 ds a, to <> from -> Forall (alike from c) (d0 :: ds) ->
  playing p to a -> au_resampler a = None -> en_new e to from (ad_frames d0) c = true ->
  let r := arun e a (map ODecoded (d0 :: ds)) in
  playing p to (fst r) /\ posts (snd r) = map (pair p) (resampled e to from (ad_frames d0) c (d0 :: ds)).
Proof.
  intros e p to from c d0 ds a Ne F Pl No Ok. destruct (resample_run e p to from c d0 ds a Ne F Pl No Ok) as [K E].
  split; [apply K|exact E].
Qed.
Print Assumptions C134_resampled_partial.

Example C134_example :
  let ds := [AudioData 44100 0 2 [[1; 2]]; AudioData 44100 10 3 [[3; 4; 5]]; AudioData 44100 20 2 [[6; 7]]]%N in
  let a := fst (arun teller audio_new chosen) in
  Forall (alike 44100 1) ds /\ playing 7 48000 a /\ au_resampler a = None /\
  posts (snd (arun teller a (map ODecoded ds))) =
    [(7, Sound [[48000; 44100; 1; 2]]%N 0%N); (7, Sound [[48000; 44100; 3; 4]]%N 10%N); (7, Sound [[48000; 44100; 5; 6]]%N 20%N)].
Proof.
  split; [repeat constructor|]. split; [split; [reflexivity|]; split; [reflexivity|]; split; [discriminate|reflexivity]|]. split; [reflexivity|].
  vm_compute. reflexivity.
Qed.

(** Not so for the second track: its rate is not looked at, and samples of the first one come before its own. *)
Theorem C134_track_refuted : exists ops before after, ops = chosen ++ before ++ OCatalog (Some 2) true :: after /\ Forall decoded_whole ops /\
  (forall d, In (ODecoded d) before -> ad_rate d = 44100%N) /\ (forall d, In (ODecoded d) after -> ad_rate d = 32000%N /\ ad_planes d = [[6; 7]]%N) /\
  last (posts (snd (arun teller audio_new ops))) (0, Sound [] 0) = (7, Sound [[48000; 44100; 5; 6]]%N 50%N).
Proof.
  eexists. exists [mono 44100 0 [1; 2]; mono 44100 10 [3; 4; 5]]%N, [mono 32000 50 [6; 7]]%N. split; [reflexivity|]. split; [repeat constructor|].
  split; [intros d [E|[E|[]]]; injection E as <-; reflexivity|]. split; [intros d [E|[]]; injection E as <-; split; reflexivity|]. vm_compute. reflexivity.
Qed.
Print Assumptions C134_track_refuted.

(** Nor after the worklet was replaced by one with another rate. *)
Theorem C134_rate_refuted : exists ops,
  posts (snd (arun teller audio_new (chosen ++ [mono 44100 0 [1; 2]]%N ++ OWorklet (Some 8) 96000 true :: ops))) =
    [(7, Sound [[48000; 44100; 1; 2]]%N 0%N); (8, Sound [[48000; 44100; 3; 4]]%N 10%N)] /\ ops = [mono 44100 10 [3; 4]]%N.
Proof. eexists. split; [|reflexivity]. vm_compute. reflexivity. Qed.
Print Assumptions C134_rate_refuted.

(** When a second channel begins it is not heard. *)
Theorem C134_channel_refuted : exists ops,
  posts (snd (arun teller audio_new (chosen ++ ops))) = [(7, Sound [[48000; 44100; 1; 2]]%N 0%N); (7, Sound [[48000; 44100; 3; 4]]%N 10%N)] /\
  ops = [mono 44100 0 [1; 2]; stereo 44100 10 [3; 4] [5; 6]]%N.
Proof. eexists. split; [|reflexivity]. vm_compute. reflexivity. Qed.
Print Assumptions C134_channel_refuted.

(** When a second channel ends nothing is heard any more, although the track goes on. *)
Theorem C134_end_refuted : exists d, Forall decoded_whole [d] /\ forall more, Forall (fun o => match o with ODecoded _ => True | _ => False end) more ->
  posts (snd (arun teller audio_new (chosen ++ stereo 44100 0 [1; 2] [3; 4] :: d :: more)))%N =
  posts (snd (arun teller audio_new (chosen ++ [stereo 44100 0 [1; 2] [3; 4]])))%N.
Proof.
  exists (mono 44100 10 [5; 6])%N. split; [repeat constructor|]. intros more F.
  assert (Q : forall a, au_track a = None -> posts (snd (arun teller a more)) = []).
  { induction F as [|o more Ho F IH]; intros a Na; [reflexivity|]. destruct o; try contradiction. cbn [arun].
    assert (St : astep teller a (ODecoded d) = (a, [])) by (unfold astep; rewrite Na; destruct (au_dead a); reflexivity).
    rewrite St. specialize (IH a Na). destruct (arun teller a more). exact IH. }
  cbn [app chosen arun]. 
  repeat match goal with |- context [astep teller ?a ?o] => let x := eval vm_compute in (astep teller a o) in change (astep teller a o) with x; cbv iota beta end.
  match goal with |- context [arun teller ?a more] => specialize (Q a eq_refl); destruct (arun teller a more) as [a' tr] end.
  cbn [snd posts flat_map app] in *. unfold posts in Q. rewrite Q. reflexivity.
Qed.
Print Assumptions C134_end_refuted.

(** * C135 *)
(** Every resampled message has the time of the frame its first sample is of, if the frames have one size. *)
Theorem C135_times_partial : forall e to from n c ds, 1 <= n -> Forall (fun d => ad_frames d = n) ds -> forall m, In m (resampled e to from n c ds) ->
  exists k, k < samples ds / n /\ ms_time m = N.modulo (time_at (k * n) ds) (2 ^ 64) /\
    ms_channels m = en_out e (Resampler to from n c (map (fun k => chunk n c k ds) (seq 0 (S k)))).
Proof. exact resample_times. Qed.
Print Assumptions C135_times_partial.

Example C135_example :
  let ds := [AudioData 44100 0 2 [[1; 2]]; AudioData 44100 10 2 [[3; 4]]]%N in
  Forall (fun d => ad_frames d = 2) ds /\ resampled teller 48000 44100 2 1 ds = [Sound [[48000; 44100; 1; 2]] 0; Sound [[48000; 44100; 3; 4]] 10]%N.
Proof. split; [repeat constructor|vm_compute; reflexivity]. Qed.

(** Otherwise it may be the time of a later frame: the third message begins with a sample of the frame at 10. *)
Theorem C135_times_refuted : exists ds m, Forall (alike 44100 1) ds /\ In m (resampled teller 48000 44100 2 1 ds) /\
  ms_channels m = [[48000; 44100; 5; 6]]%N /\ time_at 4 ds = 10%N /\ nth 4 (stream 0 ds) 0%N = 5%N /\ ms_time m = 20%N.
Proof.
  exists [AudioData 44100 0 2 [[1; 2]]; AudioData 44100 10 3 [[3; 4; 5]]; AudioData 44100 20 2 [[6; 7]]]%N, (Sound [[48000; 44100; 5; 6]] 20)%N.
  split; [repeat constructor|]. vm_compute. repeat split. auto.
Qed.
Print Assumptions C135_times_refuted.

(** * C136 *)
(** Exactly what is heard: each call plays the next samples of what was received and not replaced, then
    silence; a message that finds five that are not over replaces all of them but the first. *)
Theorem C136_heard : forall ops c n, Forall usual ops -> 1 <= c ->
  snd (rstep (fst (rrun (Some renderer_new) ops)) (RProcess c n)) = RHeard (map (to_hear ops n) (seq 0 c)).
Proof. exact heard. Qed.
Print Assumptions C136_heard.

(** So what is heard is in order and nothing is heard twice; the newest message is never left out. *)
Theorem C136_order : forall ops, part_of (fst (accounts ops)) (received ops).
Proof. exact kept_part. Qed.
Print Assumptions C136_order.
Theorem C136_newest : forall ops m, exists ms, fst (accounts (ops ++ [RMessage m])) = ms ++ [m].
Proof. exact newest_kept. Qed.
Print Assumptions C136_newest.
(** Nothing is left out as long as no message finds five others that are not over. *)
Theorem C136_complete : forall ops,
  (forall a m b, ops = a ++ RMessage m :: b -> length (received a) - finished (snd (accounts a)) (received a) < 5) ->
  fst (accounts ops) = received ops.
Proof. exact all_kept. Qed.
Print Assumptions C136_complete.

(** The two halves together: whatever the player did, and however much of what it posted has arrived. *)
Theorem C136_both : forall e ops p rops c n, even_engine e -> Forall decoded_whole ops ->
  (exists later, posts_to p (snd (arun e audio_new ops)) = received rops ++ later) ->
  Forall (fun o => match o with RProcess c _ => 1 <= c | _ => True end) rops -> 1 <= c ->
  snd (rstep (fst (rrun (Some renderer_new) rops)) (RProcess c n)) = RHeard (map (to_hear rops n) (seq 0 c)).
Proof. exact end_to_end. Qed.
Print Assumptions C136_both.

Definition one (k : N) : message := Sound [[k; k + 1]; [k + 100; k + 101]]%N k.
Definition six : list rop := map (fun k => RMessage (one k)) [10; 20; 30; 40; 50; 60]%N.
Example C136_example :
  Forall usual six /\ map snd (snd (rrun (Some renderer_new) (six ++ [RProcess 2 3; RProcess 2 3]))) =
    repeat RNone 6 ++ [RHeard [[10; 11; 60]; [110; 111; 160]]; RHeard [[61; 0; 0]; [161; 0; 0]]]%N.
Proof. split; [unfold six; repeat constructor|vm_compute; reflexivity]. Qed.
Example C136_complete_example :
  let ops := [RMessage (one 10); RMessage (one 20); RProcess 1 3; RMessage (one 30)]%N in
  (forall a m b, ops = a ++ RMessage m :: b -> length (received a) - finished (snd (accounts a)) (received a) < 5) /\ to_hear ops 4 0 = [21; 30; 31; 0]%N.
Proof.
  split; [|vm_compute; reflexivity]. intros a m b E.
  destruct a as [|x0 [|x1 [|x2 [|x3 a]]]]; cbn in E; try discriminate E; injection E; intros; subst; try (vm_compute; lia).
  destruct a; discriminate.
Qed.

(** * C137 *)
(** At most five messages wait to be played. *)
Theorem C137_bounded : forall ops, Forall usual ops -> let (ms, p) := accounts ops in length ms - finished p ms <= 5.
Proof. exact at_most_five. Qed.
Print Assumptions C137_bounded.
(** Silence is heard only when everything has been played. *)
Theorem C137_gaps : forall ops n i, Forall usual ops ->
  exists s, to_hear ops n i = s ++ repeat 0%N (n - ahead ops) /\ length s = Nat.min n (ahead ops).
Proof. exact to_hear_split. Qed.
Print Assumptions C137_gaps.
Example C137_example : Forall usual six /\ (let (ms, p) := accounts six in length ms - finished p ms) = 2 /\ ahead six = 4 /\ to_hear six 6 1 = [110; 111; 160; 161; 0; 0]%N.
Proof. split; [unfold six; repeat constructor|]. vm_compute. auto. Qed.

(** * C138 *)
(** Channels are not mixed: with two outputs a track with one channel is heard on the left only, and with one
    output the right channel of a stereo track is not heard at all. *)
Theorem C138_left_only : forall s, proper (Sound [s] 0) ->
  snd (rstep (fst (rrun (Some renderer_new) [RMessage (Sound [s] 0)])) (RProcess 2 (length s))) = RHeard [s; repeat 0%N (length s)].
Proof.
  intros s P. rewrite heard; [|constructor; [exact P|constructor]|lia]. cbn [seq map]. unfold to_hear, accounts.
  cbn [fold_left account finished length Nat.sub Nat.ltb Nat.leb app map concat lane ms_channels nth size skipn]. rewrite !app_nil_r, !firstn_all2, ?repeat_length, Nat.sub_diag by (rewrite ?repeat_length; lia).
  cbn [repeat]. rewrite !app_nil_r. reflexivity.
Qed.
Print Assumptions C138_left_only.
Theorem C138_mono_refuted : exists s, proper (Sound [s] 0) /\ exists outs,
  snd (rstep (fst (rrun (Some renderer_new) [RMessage (Sound [s] 0)])) (RProcess 2 (length s))) = RHeard outs /\ nth 1 outs [] <> s.
Proof. exists [1; 2]%N. split; [repeat constructor|]. eexists. split; [vm_compute; reflexivity|]. discriminate. Qed.
Print Assumptions C138_mono_refuted.
Theorem C138_right_refuted : exists l r r', r <> r' /\ forall n,
  snd (rstep (fst (rrun (Some renderer_new) [RMessage (Sound [l; r] 0)])) (RProcess 1 n)) =
  snd (rstep (fst (rrun (Some renderer_new) [RMessage (Sound [l; r'] 0)])) (RProcess 1 n)).
Proof.
  exists [1%N], [2%N], [3%N]. split; [discriminate|]. intros n.
  rewrite !heard by (try lia; repeat constructor). reflexivity.
Qed.
Print Assumptions C138_right_refuted.

(** * C139 *)
(** The times of messages are not looked at: the same is heard without them. *)
Theorem C139_untimed : forall ops,
  map snd (snd (rrun (Some renderer_new) ops)) = map snd (snd (rrun (Some renderer_new) (map timeless ops))).
Proof. intros ops. apply rrun_timeless. auto. Qed.
Print Assumptions C139_untimed.
(** So audio is not played at its time: a frame of an hour later is heard right after the first one. *)
Theorem C139_time_refuted : exists m m', (ms_time m + 3600000000 <= ms_time m')%N /\ proper m /\ proper m' /\
  snd (rstep (fst (rrun (Some renderer_new) [RMessage m; RMessage m'])) (RProcess 1 4)) = RHeard [lane 0 m ++ lane 0 m'].
Proof.
  exists (Sound [[1; 2]] 0)%N, (Sound [[3; 4]] 3600000000)%N. split; [discriminate|]. split; [repeat constructor|]. split; [repeat constructor|]. vm_compute. reflexivity.
Qed.
Print Assumptions C139_time_refuted.
