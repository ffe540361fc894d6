(** js/hang/src/publish/broadcast.ts:82-191, 218-224: which cameras, microphones and screens a web page records.

    Requests to the browser (getUserMedia, getDisplayMedia) are numbered, and so are the tracks that it gives.  A track records from when it is
    given until stop() is called.  Simplified: the constraints never change; a camera gives exactly the track that was asked for; the user
    does not end the sharing of a screen by themselves.  Effects of solid-js rerun, after their cleanups, when a signal has changed that they
    have read. *)
From Coq Require Import List Bool Arith.
Import ListNotations.

(** broadcast.ts:10; kinds of tracks; the three effects of lines 84-86 *)
Inductive device := Camera | Screen.
Inductive kind := KAudio | KVideo.
Inductive asker := CamAudio | CamVideo | Both.

(** [c_asked]: for each effect, whether its last run has made a request (and so left a cleanup); [c_reqs]: who made a request, and whether it
    is open; [c_tracks]: how many tracks were given; [c_dead]: [close] was called. *)
Record capture := Capture { c_dev : option device; c_aen : bool; c_ven : bool; c_audio : option nat; c_video : option nat;
  c_asked_a : bool; c_asked_v : bool; c_asked_s : bool; c_reqs : list (asker * bool); c_tracks : nat; c_dead : bool }.
Definition c_init : capture := Capture None false false None None false false false [] 0 false.

Inductive cop :=
| CDevice (d : option device) | CAudio (b : bool) | CVideo (b : bool)   (* device.set, audio.enabled.set, video.enabled.set *)
| CGranted (k : nat) (sound : bool)                                    (* request [k] is granted; [sound]: the screen comes with audio *)
| CDenied (k : nat)
| CClose.
(** What is seen outside.  [EWant]: what is selected and enabled from now on. *)
Inductive cev :=
| EWant (d : option device) (a v : bool) | EClosed | EAsk (k : nat) (w : asker) | EGranted (k : nat) | EDenied (k : nat)
| ERec (t : nat) (x : kind) | EStop (t : nat).

Definition stop_of (o : option nat) : list cev := match o with Some t => [EStop t] | None => [] end.
Definition is_dev (s : capture) (d : device) : bool :=
  match c_dev s, d with Some Camera, Camera => true | Some Screen, Screen => true | _, _ => false end.

(** broadcast.ts:91-114: first the cleanup of the run before *)
Definition run_cam_audio (s : capture) : capture * list cev :=
  let e1 := if c_asked_a s then stop_of (c_audio s) else [] in
  let au := if c_asked_a s then None else c_audio s in
  if is_dev s Camera && c_aen s && negb (c_dead s)
  then (Capture (c_dev s) (c_aen s) (c_ven s) au (c_video s) true (c_asked_v s) (c_asked_s s) (c_reqs s ++ [(CamAudio, true)]) (c_tracks s) (c_dead s),
        e1 ++ [EAsk (length (c_reqs s)) CamAudio])
  else (Capture (c_dev s) (c_aen s) (c_ven s) au (c_video s) false (c_asked_v s) (c_asked_s s) (c_reqs s) (c_tracks s) (c_dead s), e1).
(** broadcast.ts:116-139 *)
Definition run_cam_video (s : capture) : capture * list cev :=
  let e1 := if c_asked_v s then stop_of (c_video s) else [] in
  let vi := if c_asked_v s then None else c_video s in
  if is_dev s Camera && c_ven s && negb (c_dead s)
  then (Capture (c_dev s) (c_aen s) (c_ven s) (c_audio s) vi (c_asked_a s) true (c_asked_s s) (c_reqs s ++ [(CamVideo, true)]) (c_tracks s) (c_dead s),
        e1 ++ [EAsk (length (c_reqs s)) CamVideo])
  else (Capture (c_dev s) (c_aen s) (c_ven s) (c_audio s) vi (c_asked_a s) false (c_asked_s s) (c_reqs s) (c_tracks s) (c_dead s), e1).
(** broadcast.ts:141-191 *)
Definition run_screen (s : capture) : capture * list cev :=
  let e1 := if c_asked_s s then stop_of (c_video s) ++ stop_of (c_audio s) else [] in
  let au := if c_asked_s s then None else c_audio s in
  let vi := if c_asked_s s then None else c_video s in
  if is_dev s Screen && (c_aen s || c_ven s) && negb (c_dead s)
  then (Capture (c_dev s) (c_aen s) (c_ven s) au vi (c_asked_a s) (c_asked_v s) true (c_reqs s ++ [(Both, true)]) (c_tracks s) (c_dead s),
        e1 ++ [EAsk (length (c_reqs s)) Both])
  else (Capture (c_dev s) (c_aen s) (c_ven s) au vi (c_asked_a s) (c_asked_v s) false (c_reqs s) (c_tracks s) (c_dead s), e1).

Definition seq2 (f g : capture -> capture * list cev) (s : capture) : capture * list cev :=
  let (s, a) := f s in let (s, b) := g s in (s, a ++ b).
Definition same (s : capture) : capture * list cev := (s, []).

Fixpoint req_off (l : list (asker * bool)) (k : nat) : list (asker * bool) :=
  match l, k with
  | [], _ => []
  | (w, _) :: l, O => (w, false) :: l
  | r :: l, S k => r :: req_off l k
  end.

Definition dev_eqb (a b : option device) : bool :=
  match a, b with None, None | Some Camera, Some Camera | Some Screen, Some Screen => true | _, _ => false end.
Definition with_want (s : capture) (d : option device) (a v : bool) : capture :=
  Capture d a v (c_audio s) (c_video s) (c_asked_a s) (c_asked_v s) (c_asked_s s) (c_reqs s) (c_tracks s) (c_dead s).
Definition emit (e : cev) (r : capture * list cev) : capture * list cev := (fst r, e :: snd r).

(** [CAudio]: read by 95 if the device is a camera, by 145 if it is a screen; [CVideo]: by 120, and by 145 if audio is not enabled.
    [CGranted]: 100-103, 125-128, 170-175.  [CClose]: 219; the cleanups run. *)
Definition c_step (s : capture) (o : cop) : capture * list cev :=
  match o with
  | CDevice d =>
    if dev_eqb d (c_dev s) then (s, [])
    else
      let s := with_want s d (c_aen s) (c_ven s) in
      emit (EWant d (c_aen s) (c_ven s)) (if c_dead s then (s, []) else seq2 run_cam_audio (seq2 run_cam_video run_screen) s)
  | CAudio b =>
    if Bool.eqb b (c_aen s) then (s, [])
    else
      let s := with_want s (c_dev s) b (c_ven s) in
      emit (EWant (c_dev s) b (c_ven s))
        (if c_dead s then (s, [])
         else seq2 (if is_dev s Camera then run_cam_audio else same) (if is_dev s Screen then run_screen else same) s)
  | CVideo b =>
    if Bool.eqb b (c_ven s) then (s, [])
    else
      let s := with_want s (c_dev s) (c_aen s) b in
      emit (EWant (c_dev s) (c_aen s) b)
        (if c_dead s then (s, [])
         else seq2 (if is_dev s Camera then run_cam_video else same) (if is_dev s Screen && negb (c_aen s) then run_screen else same) s)
  | CGranted k sound =>
    match nth_error (c_reqs s) k with
    | Some (w, true) =>
      let t := c_tracks s in
      let reqs := req_off (c_reqs s) k in
      match w with
      | CamAudio => (Capture (c_dev s) (c_aen s) (c_ven s) (Some t) (c_video s) (c_asked_a s) (c_asked_v s) (c_asked_s s) reqs (S t) (c_dead s), [EGranted k; ERec t KAudio])
      | CamVideo => (Capture (c_dev s) (c_aen s) (c_ven s) (c_audio s) (Some t) (c_asked_a s) (c_asked_v s) (c_asked_s s) reqs (S t) (c_dead s), [EGranted k; ERec t KVideo])
      | Both =>
        if sound
        then (Capture (c_dev s) (c_aen s) (c_ven s) (Some (S t)) (Some t) (c_asked_a s) (c_asked_v s) (c_asked_s s) reqs (S (S t)) (c_dead s),
              [EGranted k; ERec t KVideo; ERec (S t) KAudio])
        else (Capture (c_dev s) (c_aen s) (c_ven s) None (Some t) (c_asked_a s) (c_asked_v s) (c_asked_s s) reqs (S t) (c_dead s),
              [EGranted k; ERec t KVideo])
      end
    | _ => (s, [])
    end
  | CDenied k =>
    match nth_error (c_reqs s) k with
    | Some (_, true) =>
      (Capture (c_dev s) (c_aen s) (c_ven s) (c_audio s) (c_video s) (c_asked_a s) (c_asked_v s) (c_asked_s s) (req_off (c_reqs s) k) (c_tracks s) (c_dead s),
       [EDenied k])
    | _ => (s, [])
    end
  | CClose =>
    if c_dead s then (s, [])
    else
      let s := Capture (c_dev s) (c_aen s) (c_ven s) (c_audio s) (c_video s) (c_asked_a s) (c_asked_v s) (c_asked_s s) (c_reqs s) (c_tracks s) true in
      emit EClosed (seq2 run_cam_audio (seq2 run_cam_video run_screen) s)
  end.

Fixpoint c_run (s : capture) (ops : list cop) : capture * list cev :=
  match ops with
  | [] => (s, [])
  | o :: ops => let (s, a) := c_step s o in let (s, b) := c_run s ops in (s, a ++ b)
  end.
