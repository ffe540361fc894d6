(** The video renderer of the web player, [Render] in rs/hang-wasm/src/watch/video.rs.

    An execution is any sequence of decoded frames, commands of the page, and callbacks of the browser.
    A callback only runs if it was asked for.  Each call runs to its end before the next (one thread).
    Not modelled: failures of the drawing calls themselves (L287, L350-360), resizing the canvas. *)
From Coq Require Import NArith List Bool.
Import ListNotations.
Open Scope N_scope.

(** A decoded frame: its timestamp in nanoseconds, and its picture. *)
Record vframe := VFrame { vf_ts : N; vf_pic : N }.

(** video.rs:191-197 [RendererStatus] *)
Inductive vstatus := Idle | Paused | Buffering | Live.
Definition active (x : vstatus) : bool := match x with Live | Buffering => true | _ => false end.

(** video.rs:199-219 [Render], without the resolution and the two closures; of the canvas and its
    context only whether they are set, of the timeout handle whether a timeout is waiting.  A panic
    ends the program ([vr_dead]). *)
Record render := Render {
  vr_state : vstatus; vr_sched : bool; vr_latency : N; vr_ref : option (N * N); vr_visible : bool;
  vr_canvas : bool; vr_queue : list vframe; vr_timer : bool; vr_dead : bool }.
(** video.rs:222-237 [new] *)
Definition render_new : render := Render Idle false 0 None true false [] false false.

Definition vwith_state s x := Render x (vr_sched s) (vr_latency s) (vr_ref s) (vr_visible s) (vr_canvas s) (vr_queue s) (vr_timer s) (vr_dead s).
Definition vwith_sched s x := Render (vr_state s) x (vr_latency s) (vr_ref s) (vr_visible s) (vr_canvas s) (vr_queue s) (vr_timer s) (vr_dead s).
Definition vwith_latency s x := Render (vr_state s) (vr_sched s) x (vr_ref s) (vr_visible s) (vr_canvas s) (vr_queue s) (vr_timer s) (vr_dead s).
Definition vwith_ref s x := Render (vr_state s) (vr_sched s) (vr_latency s) x (vr_visible s) (vr_canvas s) (vr_queue s) (vr_timer s) (vr_dead s).
Definition vwith_visible s x := Render (vr_state s) (vr_sched s) (vr_latency s) (vr_ref s) x (vr_canvas s) (vr_queue s) (vr_timer s) (vr_dead s).
Definition vwith_canvas s x := Render (vr_state s) (vr_sched s) (vr_latency s) (vr_ref s) (vr_visible s) x (vr_queue s) (vr_timer s) (vr_dead s).
Definition vwith_queue s x := Render (vr_state s) (vr_sched s) (vr_latency s) (vr_ref s) (vr_visible s) (vr_canvas s) x (vr_timer s) (vr_dead s).
Definition vwith_timer s x := Render (vr_state s) (vr_sched s) (vr_latency s) (vr_ref s) (vr_visible s) (vr_canvas s) (vr_queue s) x (vr_dead s).
Definition vwith_dead s := Render (vr_state s) (vr_sched s) (vr_latency s) (vr_ref s) (vr_visible s) (vr_canvas s) (vr_queue s) (vr_timer s) true.

Inductive vop :=
| VPush (f : vframe)         (* a frame was decoded *)
| VDraw (now : N)            (* the animation callback, at this time *)
| VTimeout                   (* the timeout callback *)
| VPause (b : bool)          (* WatchCommand::Paused *)
| VLatency (ms : N)          (* WatchCommand::Latency, a u32 *)
| VVisible (b : bool)        (* WatchCommand::Visible *)
| VCanvas (b : bool).        (* WatchCommand::Canvas: set or unset *)

(** What the browser sees. *)
Inductive effect := EShow (f : vframe) | ERequest | ETimer.
(** [VEmpty]: the panic "rendered with no frames"; [VOverflow]: the panic of [now + latency]. *)
Inductive vout := VOk (es : list effect) | VEmpty | VOverflow | VBad.

(** video.rs:239-246 [duration] *)
Definition vduration (q : list vframe) : option N :=
  match q with
  | [] => None
  | f :: _ => Some (vf_ts (last q f) - vf_ts f)
  end.

(** video.rs:308-312: drop frames while the buffer is too full; [true] if any was.  The [unwrap] of
    L309 is the [None] case. *)
Fixpoint trim (latency : N) (q : list vframe) : list vframe * bool :=
  match q with
  | [] => ([], false)
  | _ :: r =>
    match vduration q with
    | Some d => if latency <? d then (fst (trim latency r), true) else (q, false)
    | None => (q, false)
    end
  end.
(** video.rs:302-313 [trim_buffer] *)
Definition trim_buffer (s : render) : render :=
  match vr_queue s with
  | [] => vwith_ref s None
  | q => let (q, some) := trim (vr_latency s) q in
         let s := vwith_queue s q in
         if some then vwith_ref s None else s
  end.

(** video.rs:315-337 [schedule] *)
Definition schedule (s : render) : render * list effect :=
  if vr_sched s then (s, [])
  else if negb (active (vr_state s)) then (s, [])
  else if negb (vr_visible s) then (s, [])
  else match vr_queue s with
       | [] => (s, [])
       | _ :: _ => (vwith_sched s true, [ERequest])
       end.

(** video.rs:248-252 [push] *)
Definition push (f : vframe) (s : render) : render * list effect :=
  schedule (trim_buffer (vwith_queue s (vr_queue s ++ [f]))).

(** video.rs:408-420 [set_live] *)
Definition set_live (s : render) : render := vwith_timer (vwith_state s Live) true.

(** video.rs:270-280: take the newest frame whose time has come; [true] if frames were dropped. *)
Fixpoint advance (elapsed pts : N) (f : vframe) (q : list vframe) : vframe * list vframe * bool :=
  match q with
  | [] => (f, [], false)
  | next :: r =>
    if elapsed <=? vf_ts next - pts then (f, q, false)
    else let '(g, r, _) := advance elapsed pts next r in (g, r, true)
  end.

(** [Duration::MAX] in nanoseconds, plus one *)
Definition duration_max : N := 2 ^ 64 * 10 ^ 9.

(** video.rs:254-300 [draw].  [now - wall_ref] saturates. *)
Definition draw (now : N) (s : render) : render * vout :=
  let s := vwith_sched s false in
  if negb (active (vr_state s)) then (s, VOk []) else
  match vr_queue s with
  | [] => (vwith_dead s, VEmpty)
  | f :: q =>
    let step :=
      match vr_ref s with
      | Some (wall, pts) =>
        let '(g, q, some) := advance (now - wall) pts f q in
        let s := vwith_queue s q in
        Some ((if some then set_live s else s), g, if some then [ETimer] else [])
      | None =>
        if now + vr_latency s <? duration_max
        then Some (vwith_ref (vwith_queue s q) (Some (now + vr_latency s, vf_ts f)), f, [])
        else None
      end in
    match step with
    | None => (vwith_dead s, VOverflow)
    | Some (s, g, e1) =>
      let e2 := if vr_canvas s then [EShow g] else [] in
      let '(s, e3) :=
        if match vduration (vr_queue s) with Some d => d | None => 0 end <? vr_latency s
        then (vwith_queue s (g :: vr_queue s), []) else (set_live s, [ETimer]) in
      let (s, e4) := schedule s in
      (s, VOk (e1 ++ e2 ++ e3 ++ e4))
    end
  end.

(** One event *)
Definition vstep (s : render) (o : vop) : render * vout :=
  if vr_dead s then (s, VBad) else
  match o with
  | VPush f => let (s, e) := push f s in (s, VOk e)
  | VDraw now => if vr_sched s then draw now s else (s, VBad)
  | VTimeout =>                                     (* video.rs:422-427 *)
    if vr_timer s
    then (vwith_timer (match vr_state s with Live => vwith_state s Buffering | _ => s end) false, VOk [])
    else (s, VBad)
  | VPause true => (vwith_state (vwith_ref (vwith_queue s []) None) Paused, VOk [])  (* L367-371 *)
  | VPause false => let (s, e) := schedule (vwith_state s Buffering) in (s, VOk e)   (* L372-375 *)
  | VLatency ms =>                                  (* video.rs:393-397 *)
    (vwith_state (vwith_ref (vwith_latency s (ms * 10 ^ 6)) None) Buffering, VOk [])
  | VVisible b => let (s, e) := schedule (vwith_visible s b) in (s, VOk e)           (* L399-402 *)
  | VCanvas b => (vwith_canvas s b, VOk [])         (* video.rs:339-363 *)
  end.

Fixpoint vrun (s : render) (ops : list vop) : render * list (vop * vout) :=
  match ops with
  | [] => (s, [])
  | o :: ops =>
    let (s, x) := vstep s o in
    let (s, tr) := vrun s ops in
    (s, (o, x) :: tr)
  end.
