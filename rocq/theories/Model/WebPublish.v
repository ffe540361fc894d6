(** The publishing element of a web page: [Publish] in rs/hang-wasm/src/publish/mod.rs, with its encoders in
    publish/video.rs and publish/audio.rs.

    The page is one thread; a command is processed to its end before anything else runs (bridge.rs L52-60), also
    when it waits for the browser.
    Simplified: a URL is its path; the encoders of the browser take frames and give encoded frames when they like,
    and their configuration is known from some moment on; the task that waits for the end of a track
    (hang/src/model/broadcast.rs L41-46) runs as soon as the track ends.  Not modelled: the choice of a codec, the
    identifiers wrapping around at [usize::MAX]. *)
From Coq Require Import NArith List Bool.
From Coq Require Import Init.Byte Strings.Byte.
From Verif.Model Require Import Base Map FrameSys Text Player.
Import ListNotations.
Open Scope N_scope.

(** [PublishVideo]/[PublishAudio], video.rs L5-18, audio.rs L5-18.  [en_ready]: [encoded.config()] is known;
    [en_saved]: the field [broadcast]; [en_in]: the broadcasts its track was added to. *)
Record encoder := Encoder { en_id : N; en_ready : bool; en_saved : option nat; en_in : list nat }.

(** [Publish], mod.rs L13-23.  [pb_count]: how many broadcasts were made. *)
Record pub := Pub { pb_connect : option bytes; pb_broadcast : option nat;
                    pb_audio : option encoder; pb_audio_id : N;
                    pb_video : option encoder; pb_video_id : N;
                    pb_count : nat; pb_dead : bool }.
Definition pub_new : pub := Pub None None None 0 None 0 0 false.

Inductive ueffect :=
| XTrack (k : kind) (name : bytes)      (* a track is made *)
| XPublish (b : nat) (path : bytes)     (* session.publish *)
| XAdd (b : nat) (k : kind) (id : N)    (* the track is added to a broadcast and its catalog *)
| XEncode (k : kind)                    (* a raw frame is given to the encoder *)
| XWrite (k : kind) (dests : list nat)  (* an encoded frame is written to the track, which these broadcasts carry *)
| XGone (b : nat)                       (* the last producer of a broadcast is dropped *)
| XPanic | XBad.

Inductive uop :=
| UConnect (path : option bytes)        (* PublishCommand::Connect *)
| UInit (k : kind) (ok : bool)          (* VideoInit, AudioInit; whether the browser supports it *)
| UFrame (k : kind)                     (* VideoFrame, AudioFrame *)
| UClose (k : kind)                     (* VideoClose, AudioClose *)
| USession (ok : bool)                  (* the attempt to connect ended *)
| UReady (k : kind)                     (* the encoder knows its configuration *)
| UEncoded (k : kind).                  (* an encoded frame is there *)

(** video.rs L22-24, audio.rs L22-24. *)
Definition track_name (k : kind) (id : N) : bytes :=
  match k with
  | Video => ["v"; "i"; "d"; "e"; "o"; "_"]%byte ++ show 10 id
  | Audio => ["a"; "u"; "d"; "i"; "o"; "_"]%byte ++ show 10 id
  end.

Definition enc_of (s : pub) (k : kind) : option encoder := match k with Audio => pb_audio s | Video => pb_video s end.
Definition with_enc (s : pub) (k : kind) (e : option encoder) : pub :=
  match k with
  | Audio => Pub (pb_connect s) (pb_broadcast s) e (pb_audio_id s) (pb_video s) (pb_video_id s) (pb_count s) (pb_dead s)
  | Video => Pub (pb_connect s) (pb_broadcast s) (pb_audio s) (pb_audio_id s) e (pb_video_id s) (pb_count s) (pb_dead s)
  end.

(** [publish_to], video.rs L125-149, audio.rs L78-96. *)
Definition publish_to (k : kind) (e : encoder) (b : nat) : encoder * list ueffect :=
  if en_ready e then (Encoder (en_id e) true (en_saved e) (b :: en_in e), [XAdd b k (en_id e)])
  else (Encoder (en_id e) false (Some b) (en_in e), []).
Definition publish_opt (k : kind) (e : option encoder) (b : nat) : option encoder * list ueffect :=
  match e with None => (None, []) | Some e => let (e, x) := publish_to k e b in (Some e, x) end.

(** Producers of broadcast [b]: the copy saved by an encoder, and the copy kept for each live track. *)
Definition holds (b : nat) (e : option encoder) : bool :=
  match e with
  | None => false
  | Some e => match en_saved e with Some c => Nat.eqb b c | None => false end || existsb (Nat.eqb b) (en_in e)
  end.
Definition held (s : pub) (b : nat) : bool := holds b (pb_audio s) || holds b (pb_video s) ||
  match pb_broadcast s with Some c => Nat.eqb b c | None => false end.
(** The broadcasts that have producers in [s] and none in [s']. *)
Definition gone (s s' : pub) : list ueffect :=
  flat_map (fun b => if held s b && negb (held s' b) then [XGone b] else []) (seq 0 (pb_count s)).

Definition ustep (s : pub) (o : uop) : pub * list ueffect :=
  if pb_dead s then (s, [XBad]) else
  match o with
  | UConnect p =>                                                                     (* mod.rs L28-34 *)
      (Pub p (pb_broadcast s) (pb_audio s) (pb_audio_id s) (pb_video s) (pb_video_id s) (pb_count s) (pb_dead s), [])
  | UInit k false => (s, [])                                                          (* mod.rs L36, L57: the [?] *)
  | UInit k true =>                                                                   (* mod.rs L35-42, L53-63 *)
      let id := match k with Audio => pb_audio_id s | Video => pb_video_id s end in
      let e := Encoder id false None [] in
      let (e, x) := match pb_broadcast s with Some b => publish_to k e b | None => (e, []) end in
      let s' := match k with
        | Audio => Pub (pb_connect s) (pb_broadcast s) (Some e) (id + 1) (pb_video s) (pb_video_id s) (pb_count s) (pb_dead s)
        | Video => Pub (pb_connect s) (pb_broadcast s) (pb_audio s) (pb_audio_id s) (Some e) (id + 1) (pb_count s) (pb_dead s)
        end in
      (s', XTrack k (track_name k id) :: x ++ gone s s')
  | UFrame k =>                                                                       (* mod.rs L43-49, L64-69 *)
      match enc_of s k with
      | Some _ => (s, [XEncode k])
      | None => (s, [])
      end
  | UClose k =>                                                                       (* mod.rs L50-52, L70-72 *)
      let s' := with_enc s k None in (s', gone s s')
  | USession ok =>                                                                    (* mod.rs L81-84 *)
      match pb_connect s with
      | None => (s, [XBad])
      | Some p =>
        let s := Pub None (pb_broadcast s) (pb_audio s) (pb_audio_id s) (pb_video s) (pb_video_id s) (pb_count s) (pb_dead s) in
        if ok then
          match strip_slash p with                                                    (* L94 *)
          | None => (Pub None (pb_broadcast s) (pb_audio s) (pb_audio_id s) (pb_video s) (pb_video_id s) (pb_count s) true, [XPanic])
          | Some p =>
            let b := pb_count s in
            let room := p in                                                          (* L95 *)
            let path := room ++ p in                                                  (* L98; hang/src/model/room.rs L29 *)
            let (v, xv) := publish_opt Video (pb_video s) b in                        (* L100-102 *)
            let (a, xa) := publish_opt Audio (pb_audio s) b in                        (* L104-106 *)
            let s' := Pub None (pb_broadcast s) a (pb_audio_id s) v (pb_video_id s) (S b) (pb_dead s) in
            (s', XPublish b path :: xv ++ xa ++ gone s s' ++ (if held s' b then [] else [XGone b]))
          end
        else (s, [])
      end
  | UReady k =>
      match enc_of s k with
      | None => (s, [XBad])
      | Some e => (with_enc s k (Some (Encoder (en_id e) true (en_saved e) (en_in e))), [])
      end
  | UEncoded k =>                                                                     (* video.rs L110-119, audio.rs L48-57 *)
      match enc_of s k with
      | None => (s, [XBad])
      | Some e =>
        if en_ready e then
          let e' := Encoder (en_id e) true None (en_in e) in
          let (e', x) := match en_saved e with Some b => publish_to k e' b | None => (e', []) end in
          (with_enc s k (Some e'), x ++ [XWrite k (en_in e')])
        else (s, [XBad])
      end
  end.

Fixpoint urun (s : pub) (ops : list uop) : pub * list (uop * list ueffect) :=
  match ops with
  | [] => (s, [])
  | o :: ops =>
    let (s, x) := ustep s o in
    let (s, tr) := urun s ops in
    (s, (o, x) :: tr)
  end.
