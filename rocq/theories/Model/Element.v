(** The custom elements of rs/hang-wasm: [Watch] and <hang-watch> (src/watch/index.ts), the queue to the worker
    (src/bridge.ts), and [Publish] and <hang-publish> (src/publish/index.ts).  The worker at the other end is the player
    of Model/Player.v.

    The page is one thread: every call, callback and event runs to its end.  The browser is modelled by what it is known
    to do: promises resolve once and run what waits for them in order; messages to a worker arrive in order;
    [transferControlToOffscreen] throws for a canvas that was transferred before; the value of a gain throws unless it is
    finite; [assignedElements({flatten: true})] of a slot without slotted elements is its fallback content; an
    [AudioContext] made before the user touched the page does not throw but is suspended until it is resumed.
    Simplified: a URL is its path, as in Player.v; a finite number is an integer; an AudioContext is named by its number. *)
From Coq Require Import NArith ZArith List Bool.
From Coq Require Import Init.Byte Strings.Byte.
From Verif.Model Require Import Base Map FrameSys Player.
Import ListNotations.
Open Scope nat_scope.

(** A JavaScript number. *)
Inductive num := NaN | Infinite (neg : bool) | Fin (z : Z).
(** [=== 0] *)
Definition is_zero (n : num) : bool := match n with Fin z => Z.eqb z 0 | _ => false end.
Definition finite (n : num) : bool := match n with Fin _ => true | _ => false end.

(** Messages to the worker: [WatchCommand], src/watch/message.rs. *)
Inductive cmd :=
| CConnect (u : option bytes) | CCanvas (c : option nat) | CWorklet (x : nat)
| CLatency (n : num) | CPaused (b : bool) | CVisible (b : bool) | CMuted (b : bool).

Section Element.
Context {C : Type}.
(** [builds]: see Player.v.  [parse_url], [parse_float], [parse_int]: [new URL(v)] (None: it throws),
    [Number.parseFloat], [Number.parseInt]; any functions. *)
Context (builds : C -> bool) (parse_url : bytes -> option bytes) (parse_float parse_int : bytes -> num).

(** bridge.ts L5, L38-41: [el_init]: the worker said [Init]; [el_queue]: what was posted and not yet taken by the
    worker.  index.ts L11-17: the fields of [Watch].  [el_contexts]: for every AudioContext (index.ts L53-54) the
    value of its gain and whether it runs; [el_loading]: whose module is being loaded (L59).  index.ts L143:
    [el_canvas]; [el_moved]: the canvases transferred so far; [el_click]: the listener of L181 is there. *)
Record element := El {
  el_init : bool; el_queue : list cmd;
  el_url : option bytes; el_latency : num; el_visible : bool; el_paused : bool; el_volume : num;
  el_gain : option nat; el_contexts : list (num * bool); el_loading : list nat;
  el_canvas : option nat; el_moved : list nat; el_click : bool;
  el_worker : watch C }.

Inductive eop :=
| EInit                            (* the worker's first message (bridge.rs L32) arrives *)
| EUrl (u : option bytes)          (* lib.url = u *)
| ELatency (n : num) | EVisible (b : bool) | EPaused (b : bool) | EVolume (n : num)     (* the other setters *)
| EAttrUrl (v : option bytes) | EAttrVolume (v : option bytes) | EAttrLatency (v : option bytes)   (* an attribute changed *)
| EIntersect (b : bool)            (* the observer reports whether the canvas observed is on the screen *)
| EDocument (b : bool)             (* the page comes to the front or leaves it *)
| ESlot (els : list (option nat))  (* the elements slotted changed: [Some c] is canvas [c] *)
| EAudio (throws runs : bool)      (* lib.initAudio(); whether [new AudioContext] throws, and whether it may run *)
| EClick (throws : bool)           (* the user clicks on the element *)
| EModule (x : nat)                (* the module of context [x] was loaded *)
| EWork                            (* the worker takes a message *)
| ENet (o : wop C).                (* something else happens in the worker *)

Inductive eout :=
| EDone | EThrew | ENone
| ETook (c : cmd) (x : list (effect C))   (* the worker processed a message *)
| EIdle                                   (* it is up and there is no message *)
| EDid (x : list (effect C)).

Definition post (c : cmd) (s : element) : element :=                                   (* bridge.ts L38-41 *)
  El (el_init s) (el_queue s ++ [c]) (el_url s) (el_latency s) (el_visible s) (el_paused s) (el_volume s)
     (el_gain s) (el_contexts s) (el_loading s) (el_canvas s) (el_moved s) (el_click s) (el_worker s).
Definition set_url s u := El (el_init s) (el_queue s) u (el_latency s) (el_visible s) (el_paused s) (el_volume s)
     (el_gain s) (el_contexts s) (el_loading s) (el_canvas s) (el_moved s) (el_click s) (el_worker s).
Definition set_latency s n := El (el_init s) (el_queue s) (el_url s) n (el_visible s) (el_paused s) (el_volume s)
     (el_gain s) (el_contexts s) (el_loading s) (el_canvas s) (el_moved s) (el_click s) (el_worker s).
Definition set_visible s b := El (el_init s) (el_queue s) (el_url s) (el_latency s) b (el_paused s) (el_volume s)
     (el_gain s) (el_contexts s) (el_loading s) (el_canvas s) (el_moved s) (el_click s) (el_worker s).
Definition set_paused s b := El (el_init s) (el_queue s) (el_url s) (el_latency s) (el_visible s) b (el_volume s)
     (el_gain s) (el_contexts s) (el_loading s) (el_canvas s) (el_moved s) (el_click s) (el_worker s).
Definition set_volume s n := El (el_init s) (el_queue s) (el_url s) (el_latency s) (el_visible s) (el_paused s) n
     (el_gain s) (el_contexts s) (el_loading s) (el_canvas s) (el_moved s) (el_click s) (el_worker s).
Definition set_contexts s g c l := El (el_init s) (el_queue s) (el_url s) (el_latency s) (el_visible s) (el_paused s) (el_volume s)
     g c l (el_canvas s) (el_moved s) (el_click s) (el_worker s).
Definition set_canvas_of s c m := El (el_init s) (el_queue s) (el_url s) (el_latency s) (el_visible s) (el_paused s) (el_volume s)
     (el_gain s) (el_contexts s) (el_loading s) c m (el_click s) (el_worker s).
Definition set_click s b := El (el_init s) (el_queue s) (el_url s) (el_latency s) (el_visible s) (el_paused s) (el_volume s)
     (el_gain s) (el_contexts s) (el_loading s) (el_canvas s) (el_moved s) b (el_worker s).
Definition set_worker s q w := El (el_init s) q (el_url s) (el_latency s) (el_visible s) (el_paused s) (el_volume s)
     (el_gain s) (el_contexts s) (el_loading s) (el_canvas s) (el_moved s) (el_click s) w.
Definition set_init s := El true (el_queue s) (el_url s) (el_latency s) (el_visible s) (el_paused s) (el_volume s)
     (el_gain s) (el_contexts s) (el_loading s) (el_canvas s) (el_moved s) (el_click s) (el_worker s).

(** index.ts L82-85 *)
Definition assign_url (u : option bytes) (s : element) : element * eout := (post (CConnect u) (set_url s u), EDone).
(** index.ts L91-94 *)
Definition assign_latency (n : num) (s : element) : element * eout := (set_latency (post (CLatency n) s) n, EDone).
(** index.ts L100-103 *)
Definition assign_visible (b : bool) (s : element) : element * eout := (post (CVisible b) (set_visible s b), EDone).
(** index.ts L128-131 *)
Definition assign_paused (b : bool) (s : element) : element * eout := (post (CPaused b) (set_paused s b), EDone).
(** index.ts L109-122 *)
Definition assign_volume (n : num) (s : element) : element * eout :=
  let s1 := if Bool.eqb (is_zero n) (is_zero (el_volume s)) then s else post (CMuted (is_zero n)) s in
  let s2 := set_volume s1 n in
  match el_gain s with
  | None => (s2, EDone)
  | Some g =>
    if finite n then
      (set_contexts s2 (el_gain s)
        (match nth_error (el_contexts s) g with Some (_, r) => set_nth g (n, r) (el_contexts s) | None => el_contexts s end)
        (el_loading s), EDone)
    else (s2, EThrew)
  end.
(** index.ts L52-76: the gain is made with the volume; the module is loaded in the background. *)
Definition init_audio (throws runs : bool) (s : element) : element * eout :=
  if throws || negb (finite (el_volume s)) then (s, EThrew)
  else
    let x := length (el_contexts s) in
    (set_contexts s (Some x) (el_contexts s ++ [(el_volume s, runs)]) (el_loading s ++ [x]), EDone).

(** index.ts L42-46 [initVideo], L192-203 [#setCanvas] *)
Definition set_canvas (c : option nat) (s : element) : element * eout :=
  match c with
  | None => (post (CCanvas None) (set_canvas_of s None (el_moved s)), EDone)
  | Some k =>
    if existsb (Nat.eqb k) (el_moved s) then (set_canvas_of s c (el_moved s), EThrew)
    else (post (CCanvas c) (set_canvas_of s c (k :: el_moved s)), EDone)
  end.

(** index.ts L145-190: the element is made.  Canvas 0 is the fallback.  [throws], [runs]: as for [EAudio]. *)
Definition element_new (throws runs : bool) : element :=
  let s := El false [] None (Fin 0) true false (Fin 1) None [] [] None [] false watch_new in
  let s := fst (set_canvas (Some 0) s) in
  match init_audio throws runs s with
  | (s, EThrew) => set_click s true
  | (s, _) => s
  end.

(** index.ts L158-167: the first canvas slotted. *)
Definition assigned (els : list (option nat)) : list (option nat) := match els with [] => [Some 0] | _ => els end.
Fixpoint first_canvas (els : list (option nat)) : option nat :=
  match els with [] => None | Some c :: _ => Some c | None :: els => first_canvas els end.

(** What the player makes of a message; its canvas and worklet are there or not, latency and pause are the renderer's
    (Model/Render.v). *)
Definition command (c : cmd) : option (wop C) :=
  match c with
  | CConnect u => Some (WConnect u) | CCanvas c => Some (WCanvas (match c with Some _ => true | None => false end))
  | CWorklet _ => Some (WWorklet true) | CVisible b => Some (WVisible b) | CMuted b => Some (WMuted b)
  | CLatency _ | CPaused _ => None
  end.
Definition network (o : wop C) : bool :=
  match o with WSession _ | WCatalog _ | WTrackEnd _ | WFrame _ => true | _ => false end.

Definition nothing (v : option bytes) : bool := match v with None | Some [] => true | _ => false end.
Definition estep (s : element) (o : eop) : element * eout :=
  match o with
  | EInit => if el_init s then (s, ENone) else (set_init s, EDone)
  | EUrl u => assign_url u s
  | ELatency n => assign_latency n s
  | EVisible b => assign_visible b s
  | EPaused b => assign_paused b s
  | EVolume n => assign_volume n s
  | EAttrUrl v =>                                                                      (* L206-207 *)
      if nothing v then assign_url None s
      else match parse_url (match v with Some v => v | None => [] end) with
           | Some u => assign_url (Some u) s
           | None => (s, EThrew)
           end
  | EAttrVolume v => assign_volume (match v with Some v => parse_float v | None => Fin 1 end) s     (* L208-209 *)
  | EAttrLatency v => assign_latency (match v with Some v => parse_int v | None => Fin 0 end) s     (* L210-211 *)
  | EIntersect b => match el_canvas s with Some _ => assign_visible b s | None => (s, ENone) end    (* L148-152 *)
  | EDocument b => assign_visible b s                                                  (* L171-173 *)
  | ESlot els => set_canvas (first_canvas (assigned els)) s
  | EAudio throws runs => init_audio throws runs s
  | EClick throws =>                                                                   (* L181-183, once *)
      if el_click s then init_audio throws true (set_click s false) else (s, ENone)
  | EModule x =>                                                                       (* L59-72 *)
      if existsb (Nat.eqb x) (el_loading s) then
        (post (CWorklet x) (set_contexts s (el_gain s) (el_contexts s) (filter (fun y => negb (Nat.eqb x y)) (el_loading s))), EDone)
      else (s, ENone)
  | EWork =>
      if el_init s then
        match el_queue s with
        | [] => (s, EIdle)
        | c :: q =>
          match command c with
          | None => (set_worker s q (el_worker s), ETook c [])
          | Some o => let (w, x) := wstep builds (el_worker s) o in (set_worker s q w, ETook c x)
          end
        end
      else (s, ENone)
  | ENet o =>
      if network o then let (w, x) := wstep builds (el_worker s) o in (set_worker s (el_queue s) w, EDid x)
      else (s, ENone)
  end.

Fixpoint erun (s : element) (ops : list eop) : element * list (eop * eout) :=
  match ops with
  | [] => (s, [])
  | o :: ops => let (s1, x) := estep s o in let (s2, tr) := erun s1 ops in (s2, (o, x) :: tr)
  end.
End Element.
Arguments element C : clear implicits.
Arguments eop C : clear implicits.
Arguments eout C : clear implicits.

(** * The publishing element, src/publish/index.ts *)

(** L6-10 *)
Record publisher := Pub { pu_url : option bytes; pu_device : option bytes; pu_video : bool; pu_audio : bool }.
Definition publisher_new : publisher := Pub None None true true.
(** L87-97: an attribute is given a value, or removed. *)
Inductive attribute := AUrl | ADevice | ANoVideo | ANoAudio.
(** What is posted to the worker, if anything. *)
Definition attr_step (parse_url : bytes -> option bytes) (s : publisher) (a : attribute) (v : option bytes)
    : publisher * list (option bytes) :=
  match a with
  | AUrl =>
      if nothing v then (Pub None (pu_device s) (pu_video s) (pu_audio s), [None])
      else match parse_url (match v with Some v => v | None => [] end) with
           | Some u => (Pub (Some u) (pu_device s) (pu_video s) (pu_audio s), [Some u])
           | None => (s, [])
           end
  | ADevice => (Pub (pu_url s) v (pu_video s) (pu_audio s), [])
  | ANoVideo => (Pub (pu_url s) (pu_device s) (nothing v) (pu_audio s), [])
  | ANoAudio => (Pub (pu_url s) (pu_device s) (pu_video s) (nothing v), [])
  end.
Fixpoint attr_run (parse_url : bytes -> option bytes) (s : publisher) (l : list (attribute * option bytes))
    : publisher * list (option bytes) :=
  match l with
  | [] => (s, [])
  | (a, v) :: l => let (s, x) := attr_step parse_url s a v in let (s, y) := attr_run parse_url s l in (s, x ++ y)
  end.
