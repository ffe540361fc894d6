(** Audio in the browser: from decoded frames to messages for the audio worklet
    (rs/hang-wasm/src/watch/audio.rs) and from those to the loudspeaker
    (rs/hang-wasm/src/worklet/index.ts).  Decoding, subscriptions and which track is chosen (Player) are not
    modelled here: a track is a name and gives arbitrary decoded frames. *)
From Coq Require Import NArith List Bool Arith.
From Verif.Model Require Import Base.
Import ListNotations.
Open Scope nat_scope.

(** The 32 bits of a float; [0] is silence. *)
Definition sample := N.

(** What is read from a web_codecs::AudioData: sample_rate, timestamp (microseconds), number_of_frames and
    the planes ([number_of_channels] is their number). *)
Record audio_data := AudioData { ad_rate : N; ad_time : N; ad_frames : nat; ad_planes : list (list sample) }.

(** worklet/message.rs:6-14 [WorkletCommand::Frame] *)
Record message := Sound { ms_channels : list (list sample); ms_time : N }.

(** * The resampler *)

(** rubato's FastFixedIn as made at audio.rs:126-132: the two rates, the chunk size, the number of channels
    and the chunks it was given so far. *)
Record resampler := Resampler { rs_to : N; rs_from : N; rs_chunk : nat; rs_channels : nat; rs_fed : list (list (list sample)) }.
(** The crate is not in the repository.  Whether [new] accepts its arguments and what [process_into_buffer]
    puts out are arbitrary functions, the latter of everything that was given. *)
Record engine := Engine { en_new : N -> N -> nat -> nat -> bool; en_out : resampler -> list (list sample); en_junk : list sample }.
(** The number of output samples (the same in every channel). *)
Definition out_length (o : list (list sample)) : nat := match o with [] => 0 | c :: _ => length c end.

Definition fed (r : resampler) (c : list (list sample)) : resampler :=
  Resampler (rs_to r) (rs_from r) (rs_chunk r) (rs_channels r) (rs_fed r ++ [c]).

(** audio.rs:140-142: every plane is appended to the buffer of its channel; a missing plane is an error, in
    which case something may have been appended ([en_junk]). *)
Fixpoint append_planes (e : engine) (i : nat) (d : audio_data) (bufs : list (list sample)) : list (list sample) * bool :=
  match bufs with
  | [] => ([], true)
  | dst :: rest =>
      match nth_error (ad_planes d) i with
      | Some p => let (b, ok) := append_planes e (S i) d rest in ((dst ++ p) :: b, ok)
      | None => ((dst ++ en_junk e) :: rest, false)
      end
  end.

Inductive ended := EDone | EFailed | EPanicked | EHung.

(** audio.rs:144-183, the loop.  [process_into_buffer] fails unless every channel has a chunk. *)
Fixpoint rounds (e : engine) (time : N) (fuel : nat) (r : resampler) (bufs : list (list sample))
  : resampler * list (list sample) * list message * ended :=
  match fuel with
  | 0 => (r, bufs, [], EHung)
  | S fuel =>
      match bufs with
      | [] => (r, bufs, [], EPanicked)                                         (* 148: [0] *)
      | b :: _ =>
          if Nat.ltb (length b) (rs_chunk r) then (r, bufs, [], EDone)          (* 148-151 *)
          else if negb (forallb (fun b => Nat.leb (rs_chunk r) (length b)) bufs) then (r, bufs, [], EFailed)  (* 153-154 *)
          else let r := fed r (map (firstn (rs_chunk r)) bufs) in
               let bufs := map (skipn (rs_chunk r)) bufs in                   (* 156-159 *)
               let out := en_out e r in
               let x := rounds e time fuel r bufs in
               match out_length out with
               | 0 => x                                                       (* 161-163 *)
               | _ => let '(r, bufs, ms, z) := x in (r, bufs, Sound out (N.modulo time (2 ^ 64)) :: ms, z)   (* 165-182 *)
               end
      end
  end.

(** * The audio of a player *)

(** audio.rs:8-22 [Audio].  [au_first]: the first audio track of the catalog (none without broadcast).
    [au_dead]: the page panicked or hangs. *)
Record audio := Audio {
  au_worklet : option nat; au_track : option nat; au_rate : N; au_resampler : option resampler; au_in : list (list sample);
  au_muted : bool; au_first : option nat; au_dead : bool }.
Definition audio_new : audio := Audio None None 0 None [] false None false.

Definition with_track (a : audio) (t : option nat) : audio :=
  Audio (au_worklet a) t (au_rate a) (au_resampler a) (au_in a) (au_muted a) (au_first a) (au_dead a).
Definition with_resampler (a : audio) (r : option resampler) (bufs : list (list sample)) : audio :=
  Audio (au_worklet a) (au_track a) (au_rate a) r bufs (au_muted a) (au_first a) (au_dead a).
Definition with_dead (a : audio) : audio :=
  Audio (au_worklet a) (au_track a) (au_rate a) (au_resampler a) (au_in a) (au_muted a) (au_first a) true.

(** audio.rs:26-54 [reinit]; [ok]: whether a decoder could be made (L48). *)
Definition reinit (ok : bool) (a : audio) : audio :=
  if au_muted a then with_track a None
  else match au_worklet a with
       | None => with_track a None
       | Some _ =>
           match au_first a with
           | None => with_track a None
           | Some t => match au_track a with
                       | Some t' => if Nat.eqb t' t then a else with_track a (if ok then Some t else None)
                       | None => with_track a (if ok then Some t else None)
                       end
           end
       end.

(** audio.rs:110-186 [resample] *)
Definition resample (e : engine) (a : audio) (d : audio_data) : audio * list message * ended :=
  let made := match au_resampler a with
              | Some r => Some (r, au_in a)
              | None => if en_new e (au_rate a) (ad_rate d) (ad_frames d) (length (ad_planes d))
                        then Some (Resampler (au_rate a) (ad_rate d) (ad_frames d) (length (ad_planes d)) [],
                                   repeat [] (length (ad_planes d)))
                        else None
              end in                                                           (* 124-137 *)
  match made with
  | None => (a, [], EFailed)
  | Some (r, bufs) =>
      let (bufs, ok) := append_planes e 0 d bufs in
      if ok then let '(r, bufs, ms, z) := rounds e (ad_time d) (S (match bufs with [] => 0 | b :: _ => length b end)) r bufs in
                 (with_resampler a (Some r) bufs, ms, z)
      else (with_resampler a (Some r) bufs, [], EFailed)
  end.

(** audio.rs:189-219 [proxy] *)
Definition proxy (d : audio_data) : list message := [Sound (ad_planes d) (N.modulo (ad_time d) (2 ^ 64))].

Inductive aop :=
| OCatalog (first : option nat) (ok : bool)        (* set_catalog *)
| OWorklet (port : option nat) (rate : N) (ok : bool)  (* set_worklet *)
| OMuted (b : bool) (ok : bool)                    (* set_muted *)
| ODecoded (d : audio_data)                        (* the track has decoded a frame *)
| OEnd.                                            (* the track has ended or failed *)

(** One step, and what is posted: to which worklet and what.  audio.rs:79-108 [run], [run_inner]: after an error
    or the end of the track the track is given up.  [post_message] is taken to succeed. *)
Definition astep (e : engine) (a : audio) (o : aop) : audio * list (nat * message) :=
  if au_dead a then (a, [])
  else match o with
  | OCatalog first ok =>                                                       (* 56-60 *)
      (reinit ok (Audio (au_worklet a) (au_track a) (au_rate a) (au_resampler a) (au_in a) (au_muted a) first false), [])
  | OWorklet port rate ok =>                                                   (* 62-72 *)
      (reinit ok (Audio port (au_track a) rate (au_resampler a) (au_in a) (au_muted a) (au_first a) false), [])
  | OMuted b ok =>                                                             (* 74-77 *)
      (reinit ok (Audio (au_worklet a) (au_track a) (au_rate a) (au_resampler a) (au_in a) b (au_first a) false), [])
  | OEnd => (with_track a None, [])
  | ODecoded d =>
      match au_track a with
      | None => (a, [])
      | Some _ =>
          match au_worklet a with
          | None => (a, [])                                                    (* 111-114, 190-193 *)
          | Some p =>
              if N.eqb (ad_rate d) (au_rate a) then (a, map (pair p) (proxy d))
              else let '(a, ms, z) := resample e a d in
                   (match z with EDone => a | EFailed => with_track a None | _ => with_dead a end, map (pair p) ms)
          end
      end
  end.

Fixpoint arun (e : engine) (a : audio) (ops : list aop) : audio * list (aop * list (nat * message)) :=
  match ops with
  | [] => (a, [])
  | o :: ops => let (a, x) := astep e a o in let (a, tr) := arun e a ops in (a, (o, x) :: tr)
  end.

(** * The worklet *)

(** worklet/index.ts:6-8 [Renderer] *)
Record renderer := Renderer { re_current : option message; re_pos : nat; re_queued : list message }.
Definition renderer_new : renderer := Renderer None 0 [].

(** index.ts:23-39 [onFrame] *)
Definition on_frame (r : renderer) (m : message) : renderer :=
  match re_current r with
  | None => Renderer (Some m) (re_pos r) (re_queued r)
  | Some _ => if Nat.ltb (length (re_queued r)) 4 then Renderer (re_current r) (re_pos r) (re_queued r ++ [m])
              else Renderer (re_current r) (re_pos r) [m]
  end.

(** [output.set(src, offset)]; there is always enough space. *)
Definition set_at (out : list sample) (offset : nat) (src : list sample) : list sample :=
  firstn offset out ++ src ++ skipn (offset + length src) out.

(** index.ts:58-73: the channels that both have.  The second component is [written]. *)
Fixpoint copy_channels (pos offset : nat) (outs chans : list (list sample)) (written : nat) : list (list sample) * nat :=
  match outs, chans with
  | out :: outs, ch :: chans =>
      let cur := firstn (Nat.min (pos + length out - offset) (length ch) - pos) (skipn pos ch) in
      let (outs, w) := copy_channels pos offset outs chans (length cur) in
      (set_at out offset cur :: outs, w)
  | outs, _ => (outs, written)
  end.

(** index.ts:42-93 [process]: the loop of L57-84.  [None]: an exception (L80 for a frame without channels) or
    no progress. *)
Fixpoint render (fuel : nat) (r : renderer) (outs : list (list sample)) (n offset : nat) : option (renderer * list (list sample)) :=
  match re_current r with
  | None => Some (r, outs)
  | Some m =>
      if Nat.ltb offset n
      then match fuel with
           | 0 => None
           | S fuel =>
               let (outs, written) := copy_channels (re_pos r) offset outs (ms_channels m) 0 in
               let pos := re_pos r + written in
               match ms_channels m with
               | [] => None
               | c :: _ =>
                   if Nat.leb (length c) pos
                   then match re_queued r with
                        | [] => render fuel (Renderer None 0 []) outs n (offset + written)
                        | q :: qs => render fuel (Renderer (Some q) 0 qs) outs n (offset + written)
                        end
                   else render fuel (Renderer (Some m) pos (re_queued r)) outs n (offset + written)
               end
           end
      else Some (r, outs)
  end.
(** The output has [c] channels of [n] samples, all silent; without channels L57 throws. *)
Definition process (r : renderer) (c n : nat) : option (renderer * list (list sample)) :=
  match re_current r with
  | None => Some (r, repeat (repeat 0%N n) c)                                  (* 47-49 *)
  | Some _ => match c with 0 => None | _ => render (S (S (length (re_queued r)))) r (repeat (repeat 0%N n) c) n 0 end
  end.

Inductive rop := RMessage (m : message) | RProcess (c n : nat).
Inductive rout := RNone | RHeard (outs : list (list sample)) | RThrew.
(** After an exception the processor is not called any more: it stays silent. *)
Definition rstep (r : option renderer) (o : rop) : option renderer * rout :=
  match r with
  | None => (None, match o with RMessage _ => RNone | RProcess c n => RHeard (repeat (repeat 0%N n) c) end)
  | Some r =>
      match o with
      | RMessage m => (Some (on_frame r m), RNone)
      | RProcess c n => match process r c n with Some (r, outs) => (Some r, RHeard outs) | None => (None, RThrew) end
      end
  end.
Fixpoint rrun (r : option renderer) (ops : list rop) : option renderer * list (rop * rout) :=
  match ops with
  | [] => (r, [])
  | o :: ops => let (r, x) := rstep r o in let (r, tr) := rrun r ops in (r, (o, x) :: tr)
  end.
