(** The GStreamer source element, hang-gst/src/source/imp.rs: the tasks that hand the frames of a track to the pipeline.
    Connecting is left out; reading a track is [MediaRead]'s, here any sequence of answers. *)
From Coq Require Import NArith List Bool.
From Coq Require Import Init.Byte Strings.Byte.
From Verif.Model Require Import Base Map FrameSys Media Codec.
Import ListNotations.
Open Scope N_scope.

(** One call of [track.read()]: a frame, the end of the track, an error. *)
Inductive answer := AFrame (f : mframe) | AEnd | AError.

(** A task: whether its track is video; [reference]; [tk_over]: it returned or panicked. *)
Record task := Task { tk_video : bool; tk_ref : option N; tk_over : bool }.

(** What is seen of a task: a buffer pushed to its pad, with its time, whether it needs earlier ones (DELTA_UNIT), and its
    data; the end of the stream announced on the pad (an EOS event); a panic. *)
Inductive effect := EBuffer (pts : N) (delta : bool) (data : bytes) | EEos | EPanic | EReturn | EBad.

(** L220-250 (video), L313-339 (audio): one turn of the loop.  The time is a [Duration], its subtraction panics below
    zero (L228, L321); [as_nanos() as u64] truncates (L234, L327). *)
Definition turn (t : task) (a : answer) : task * list effect :=
  match a with
  | AEnd => (Task (tk_video t) (tk_ref t) true, [EReturn])
  | AError => (Task (tk_video t) (tk_ref t) true, [EPanic])                         (* L222, L315 *)
  | AFrame f =>
    let delta := tk_video t && negb (mf_key f) in
    match tk_ref t with
    | Some r =>
      if mf_ts f <? r then (Task (tk_video t) (tk_ref t) true, [EPanic])
      else (t, [EBuffer ((mf_ts f - r) mod 2 ^ 64) delta (mf_data f)])
    | None => (Task (tk_video t) (Some (mf_ts f)) false, [EBuffer (mf_ts f mod 2 ^ 64) delta (mf_data f)])
    end
  end.

(** L177-217, L253-310: the pads made for the tracks of the catalog, by name; a panic for a codec not listed (L194, L287),
    or if there is a pad of that name already (L215, L308). *)
Inductive codec := CVideo (c : video) | CAudio (c : audio).
Definition handled (c : codec) : bool :=
  match c with
  | CVideo (H264 _) | CAudio (AAC _) | CAudio Opus => true
  | _ => false
  end.
Fixpoint make_pads (tracks : list (bytes * codec)) (pads : list bytes) : res (list bytes) :=
  match tracks with
  | [] => Val pads
  | (name, c) :: tracks =>
    if negb (handled c) then Panic
    else if existsb (str_eqb name) pads then Panic
    else make_pads tracks (pads ++ [name])
  end.

(** The element: its tasks; whether it is stopped (PausedToReady, L134-137). *)
Record src := Src { sr_tasks : list task; sr_stopped : bool }.
(** [setup], L148-347, of a catalog with these tracks. *)
Definition src_new (video : list bool) : src := Src (map (fun v => Task v None false) video) false.

Inductive gop := GTurn (k : nat) (a : answer) | GStop.
Definition gstep (s : src) (o : gop) : src * list effect :=
  match o with
  | GStop => (Src (sr_tasks s) true, [])                                            (* L349-351 [cleanup] *)
  | GTurn k a =>
    match nth_error (sr_tasks s) k with
    | Some t => if tk_over t then (s, [EBad])
                else let (t, e) := turn t a in (Src (set_nth k t (sr_tasks s)) (sr_stopped s), e)
    | None => (s, [EBad])
    end
  end.
Fixpoint grun (s : src) (ops : list gop) : src * list (gop * list effect) :=
  match ops with
  | [] => (s, [])
  | o :: ops => let (s, x) := gstep s o in let (s, tr) := grun s ops in (s, (o, x) :: tr)
  end.
