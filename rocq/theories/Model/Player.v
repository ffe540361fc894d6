(** The web player: [Watch] in rs/hang-wasm/src/watch/mod.rs with the choice of tracks in watch/audio.rs and
    watch/video.rs.  The drawing of decoded frames is in Model/Render.v.

    The page is one thread.  Between two suspensions one of these happens: a command of the page
    (hang-wasm/src/bridge.rs L52-67), the end of an attempt to connect, an answer of the catalog track, the end
    (or failure) of a media track, a decoded frame.
    Simplified: a URL is its path (the session behind it is in Model/Pool.v); [C] stands for the part of a
    catalog entry besides the track, [builds] for whether the browser accepts it (video.rs L143-168, audio.rs
    L231-249); the canvas and the port to the audio worklet are there or not.  Not modelled: the resampler. *)
From Coq Require Import NArith List Bool.
From Coq Require Import Init.Byte Strings.Byte.
From Verif.Model Require Import Base Map FrameSys.
Import ListNotations.
Open Scope N_scope.

Inductive kind := Audio | Video.
(** What the page is told (hang-wasm/src/message.rs L25-32). *)
Inductive status := Disconnected | Connecting | Connected | Live | Offline | Failure.

Section Player.
Context {C : Type}.
Variable builds : C -> bool.

(** A catalog entry: [Track] (moq/src/model/track.rs L25-28) and the rest. *)
Record rendition := Rendition { rn_name : bytes; rn_priority : N; rn_config : C }.
(** [Catalog], hang/src/catalog/root.rs L16-21. *)
Record catalog := Catalog { ct_video : list rendition; ct_audio : list rendition }.
(** A subscription: the broadcast (numbered as they are consumed) and the entry it was made for. *)
Record sub := Sub { sb_broadcast : nat; sb_info : rendition }.
Definition same_track (a b : rendition) : bool :=
  str_eqb (rn_name a) (rn_name b) && (rn_priority a =? rn_priority b).

(** [Video], video.rs L12-18, with the two fields of [Render] it looks at (L209-211). *)
Record video := V { v_track : option sub; v_broadcast : option nat; v_catalog : option catalog;
                    v_canvas : bool; v_visible : bool }.
(** [Audio], audio.rs L9-22. *)
Record audio := A { a_track : option sub; a_broadcast : option nat; a_catalog : option catalog;
                    a_worklet : bool; a_muted : bool }.

Inductive effect :=
| ESub (k : kind) (s : sub)        (* a subscription is made *)
| EUnsub (k : kind)                (* it is dropped *)
| EConsume (b : nat) (path : bytes) (* session.consume(path) *)
| EStatus (st : status)
| EPlay (k : kind) (s : sub)       (* a decoded frame goes to the renderer or the worklet *)
| EPanic
| EBad.                            (* the step cannot happen now *)

Definition dropped (k : kind) (t : option sub) : list effect := match t with Some _ => [EUnsub k] | None => [] end.

(** video.rs L45-75. *)
Definition video_reinit (v : video) : video * list effect :=
  let existing := v_track v in
  let with_track t := V t (v_broadcast v) (v_catalog v) (v_canvas v) (v_visible v) in
  let none := (with_track None, dropped Video existing) in
  match v_broadcast v, v_catalog v with
  | Some b, Some c =>
    if negb (v_canvas v) || negb (v_visible v) then none                              (* L52-54 *)
    else match ct_video c with                                                        (* L57 *)
      | [] => none
      | r :: _ =>
        let fresh :=                                                                  (* L66-74 *)
          if builds (rn_config r) then (with_track (Some (Sub b r)), dropped Video existing ++ [ESub Video (Sub b r)])
          else none in
        match existing with
        | Some e => if same_track (sb_info e) r then (with_track (Some e), []) else fresh  (* L59-64 *)
        | None => fresh
        end
      end
  | _, _ => none                                                                      (* L48-49 *)
  end.

(** audio.rs L26-54. *)
Definition audio_reinit (a : audio) : audio * list effect :=
  let existing := a_track a in
  let with_track t := A t (a_broadcast a) (a_catalog a) (a_worklet a) (a_muted a) in
  let none := (with_track None, dropped Audio existing) in
  if a_muted a || negb (a_worklet a) then none                                        (* L29-31 *)
  else match a_broadcast a, a_catalog a with
    | Some b, Some c =>
      match ct_audio c with                                                           (* L35 *)
      | [] => none
      | r :: _ =>
        let fresh :=                                                                  (* L45-53 *)
          if builds (rn_config r) then (with_track (Some (Sub b r)), dropped Audio existing ++ [ESub Audio (Sub b r)])
          else none in
        match existing with
        | Some e => if same_track (sb_info e) r then (with_track (Some e), []) else fresh  (* L37-43 *)
        | None => fresh
        end
      end
    | _, _ => none                                                                    (* L33-34 *)
    end.

(** [Watch], mod.rs L16-21.  [w_count]: how many broadcasts were consumed so far; [w_dead]: it panicked. *)
Record watch := W { w_connect : option bytes; w_broadcast : option nat; w_audio : audio; w_video : video;
                    w_count : nat; w_dead : bool }.
(** The defaults: muted is false (audio.rs L8), visible true (video.rs L233). *)
Definition watch_new : watch :=
  W None None (A None None None false false) (V None None None false true) 0 false.

(** What the catalog track answers. *)
Inductive answer := Newer (c : catalog) | Ended | Broken.

Inductive wop :=
| WConnect (path : option bytes)   (* WatchCommand::Connect *)
| WCanvas (b : bool) | WVisible (b : bool) | WWorklet (b : bool) | WMuted (b : bool)
| WSession (ok : bool)             (* the attempt ended *)
| WCatalog (r : answer)
| WTrackEnd (k : kind)             (* the track ended, or reading or decoding it failed *)
| WFrame (k : kind).               (* a frame was decoded *)

Definition with_video (s : watch) (r : video * list effect) : watch * list effect :=
  (W (w_connect s) (w_broadcast s) (w_audio s) (fst r) (w_count s) (w_dead s), snd r).
Definition with_audio (s : watch) (r : audio * list effect) : watch * list effect :=
  (W (w_connect s) (w_broadcast s) (fst r) (w_video s) (w_count s) (w_dead s), snd r).

Definition track_of (s : watch) (k : kind) : option sub :=
  match k with Audio => a_track (w_audio s) | Video => v_track (w_video s) end.

(** [strip_prefix("/")]. *)
Definition strip_slash (p : bytes) : option bytes :=
  match p with c :: p => if Byte.eqb c "/"%byte then Some p else None | [] => None end.

(** [set_catalog] of both, mod.rs L99-100, video.rs L103-107, audio.rs L56-60. *)
Definition set_catalog (s : watch) (b : nat) (c : option catalog) : watch * list effect :=
  let a := w_audio s in let v := w_video s in
  let ra := audio_reinit (A (a_track a) (Some b) c (a_worklet a) (a_muted a)) in
  let rv := video_reinit (V (v_track v) (Some b) c (v_canvas v) (v_visible v)) in
  (W (w_connect s) (w_broadcast s) (fst ra) (fst rv) (w_count s) (w_dead s), snd ra ++ snd rv).

Definition wstep (s : watch) (o : wop) : watch * list effect :=
  if w_dead s then (s, [EBad]) else
  match o with
  | WConnect p =>                                                                     (* mod.rs L26-35 *)
      (W p (w_broadcast s) (w_audio s) (w_video s) (w_count s) (w_dead s),
       [EStatus (match p with Some _ => Connecting | None => Disconnected end)])
  | WCanvas b =>                                                                      (* video.rs L109-112 *)
      let v := w_video s in
      with_video s (video_reinit (V (v_track v) (v_broadcast v) (v_catalog v) b (v_visible v)))
  | WVisible b =>                                                                     (* video.rs L118-121 *)
      let v := w_video s in
      with_video s (video_reinit (V (v_track v) (v_broadcast v) (v_catalog v) (v_canvas v) b))
  | WWorklet b =>                                                                     (* audio.rs L62-72 *)
      let a := w_audio s in
      with_audio s (audio_reinit (A (a_track a) (a_broadcast a) (a_catalog a) b (a_muted a)))
  | WMuted b =>                                                                       (* audio.rs L74-77 *)
      let a := w_audio s in
      with_audio s (audio_reinit (A (a_track a) (a_broadcast a) (a_catalog a) (a_worklet a) b))
  | WSession ok =>                                                                    (* mod.rs L50-54, 66-79 *)
      match w_connect s with
      | None => (s, [EBad])
      | Some p =>
        match strip_slash p with
        | None => (W None (w_broadcast s) (w_audio s) (w_video s) (w_count s) true, [EPanic])   (* L52 *)
        | Some p =>
          if ok then (W None (Some (w_count s)) (w_audio s) (w_video s) (S (w_count s)) false,
                      [EConsume (w_count s) p; EStatus Connected])
          else (W None (w_broadcast s) (w_audio s) (w_video s) (w_count s) false, [EStatus Failure])
        end
      end
  | WCatalog r =>                                                                     (* mod.rs L55-58, 81-101 *)
      match w_broadcast s with
      | None => (s, [EBad])
      | Some b =>
        let s' x := W (w_connect s) x (w_audio s) (w_video s) (w_count s) (w_dead s) in
        match r with
        | Broken => (s' None, [EStatus Failure])                                      (* L84-87 *)
        | Newer c => let r := set_catalog (s' (Some b)) b (Some c) in (fst r, EStatus Live :: snd r)
        | Ended => let r := set_catalog (s' None) b None in (fst r, EStatus Offline :: snd r)
        end
      end
  | WTrackEnd Audio =>                                                                (* audio.rs L79-86 *)
      let a := w_audio s in
      match a_track a with
      | None => (s, [EBad])
      | Some _ => with_audio s (A None (a_broadcast a) (a_catalog a) (a_worklet a) (a_muted a), [EUnsub Audio])
      end
  | WTrackEnd Video =>                                                                (* video.rs L77-83 *)
      let v := w_video s in
      match v_track v with
      | None => (s, [EBad])
      | Some _ => with_video s (V None (v_broadcast v) (v_catalog v) (v_canvas v) (v_visible v), [EUnsub Video])
      end
  | WFrame k =>                                                 (* video.rs L96-98, audio.rs L93-105 *)
      match track_of s k with
      | None => (s, [EBad])
      | Some t => (s, [EPlay k t])
      end
  end.

Fixpoint wrun (s : watch) (ops : list wop) : watch * list (wop * list effect) :=
  match ops with
  | [] => (s, [])
  | o :: ops =>
    let (s, x) := wstep s o in
    let (s, tr) := wrun s ops in
    (s, (o, x) :: tr)
  end.
End Player.
Arguments rendition C : clear implicits.
Arguments catalog C : clear implicits.
Arguments sub C : clear implicits.
Arguments effect C : clear implicits.
Arguments watch C : clear implicits.
Arguments wop C : clear implicits.
Arguments answer C : clear implicits.
