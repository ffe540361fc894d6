(** The web player's renderer, as seen from the page: what happened so far, read off the events. *)
From Coq Require Import NArith List Bool.
From Verif.Model Require Import Render.
Import ListNotations.
Open Scope N_scope.

Notation vevents := (list (vop * vout))%type.

Definition effects_of (x : vout) : list effect := match x with VOk es => es | _ => [] end.
Definition requests (x : vout) : bool :=
  existsb (fun e => match e with ERequest => true | _ => false end) (effects_of x).
Definition shows (x : vout) : list vframe :=
  flat_map (fun e => match e with EShow f => [f] | _ => [] end) (effects_of x).

(** Did the newest event that says anything about it say yes? *)
Fixpoint latest (says : vop * vout -> option bool) (tr : vevents) : option bool :=
  match tr with
  | [] => None
  | e :: tr => match latest says tr with Some b => Some b | None => says e end
  end.
Definition yes (o : option bool) : Prop := o = Some true.

(** An animation callback was asked for and has not run. *)
Definition pending (tr : vevents) : Prop :=
  yes (latest (fun e => if requests (snd e) then Some true
                        else match fst e, snd e with VDraw _, VBad => None | VDraw _, _ => Some false | _, _ => None end) tr).
(** The newest command to pause or resume was to pause. *)
Definition user_paused (tr : vevents) : Prop :=
  yes (latest (fun e => match fst e with VPause b => Some b | _ => None end) tr).
(** The newest among pausing, resuming and setting the latency was not a pause. *)
Definition playing (tr : vevents) : Prop :=
  yes (latest (fun e => match fst e with VPause b => Some (negb b) | VLatency _ => Some true | _ => None end) tr).
(** Paused after the newest frame was decoded. *)
Definition emptied (tr : vevents) : Prop :=
  yes (latest (fun e => match fst e with VPause true => Some true | VPush _ => Some false | _ => None end) tr).
Definition hidden (tr : vevents) : Prop :=
  yes (latest (fun e => match fst e with VVisible b => Some (negb b) | _ => None end) tr).
Definition has_canvas (tr : vevents) : Prop :=
  yes (latest (fun e => match fst e with VCanvas b => Some b | _ => None end) tr).

(** No panic so far. *)
Definition alive (tr : vevents) : Prop :=
  Forall (fun e => match snd e with VEmpty | VOverflow => False | _ => True end) tr.
(** Times at which adding a latency does not overflow. *)
Definition in_time (ops : list vop) : Prop :=
  Forall (fun o => match o with VDraw now => now + 2 ^ 32 * 10 ^ 6 < duration_max
                             | VLatency ms => ms < 2 ^ 32 | _ => True end) ops.

(** The frames decoded, and the frames shown, in order. *)
Definition decoded (tr : vevents) : list vframe :=
  flat_map (fun e => match fst e with VPush f => [f] | _ => [] end) tr.
Definition shown (tr : vevents) : list vframe := flat_map (fun e => shows (snd e)) tr.

(** The latency asked for, in nanoseconds. *)
Definition asked_latency (tr : vevents) : N :=
  match flat_map (fun e => match fst e with VLatency ms => [ms] | _ => [] end) (rev tr) with
  | [] => 0
  | ms :: _ => ms * 10 ^ 6
  end.
(** The newest frame was decoded after the newest change of the latency. *)
Definition settled (tr : vevents) : Prop :=
  yes (latest (fun e => match fst e with VPush _ => Some true | VLatency _ => Some false | _ => None end) tr).

(** Timestamps of decoded frames never go back. *)
Definition in_order (tr : vevents) : Prop :=
  forall i j f g, nth_error (decoded tr) i = Some f -> nth_error (decoded tr) j = Some g -> (i <= j)%nat -> vf_ts f <= vf_ts g.
Definition newest (tr : vevents) (f : vframe) : Prop := exists l, decoded tr = l ++ [f].

(** Since the latency was last set, a frame was decoded, or the page resumed or changed the visibility, or a
    callback ran. *)
Definition kicked (tr : vevents) : Prop :=
  yes (latest (fun e => match fst e, snd e with VDraw _, VBad => None
                       | VPush _, _ | VPause false, _ | VVisible _, _ | VDraw _, _ => Some true
                       | VLatency _, _ => Some false | _, _ => None end) tr).
(** The page sets the canvas once, at the start. *)
Definition one_canvas (ops : list vop) : Prop :=
  exists rest, ops = VCanvas true :: rest /\ Forall (fun o => match o with VCanvas _ => False | _ => True end) rest.
