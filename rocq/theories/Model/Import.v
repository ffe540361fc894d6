(** The fragmented-MP4 importer, rs/hang/src/cmaf/import.rs.

    Boxes come out of the decoder of the [mp4_atom] crate, whose source is not in the repository:
    [dec] below is an arbitrary function with that decoder's interface.  Of a decoded box only the
    fields the importer reads are kept.  A call of [parse] is one step: it is not async.
    Writing a frame to a media track is recorded in [im_log]; what a write does to the track is
    modelled in [Media]. *)
From Coq Require Import NArith ZArith List Bool.
From Coq Require Import Init.Byte Strings.Byte.
From Verif.Model Require Import Base Coding Media.
Import ListNotations.
Open Scope N_scope.

(** The four handler codes told apart by [init] (import.rs:84-96). *)
Inductive handler := Vide | Soun | Sbtl | HOther.
Definition is_vide (h : handler) : bool := match h with Vide => true | _ => false end.
Definition is_soun (h : handler) : bool := match h with Soun => true | _ => false end.

Inductive box := BMoov | BMoof | BTrun | BTfdt.
(** The errors of rs/hang/src/cmaf/error.rs the importer returns.  [ECodec]: any error of
    [init_video]/[init_audio] (import.rs:105-329), told apart by a number. *)
Inductive ierror :=
| EMp4 (n : N) | EIo (n : N) | ECodec (n : N)
| EUnknownTrack | EMissingBox (b : box) | EDuplicateBox (b : box)
| ETrailingData | EInvalidOffset | EUnsupportedTrack (subtitle : bool).

(** [Trak]: tkhd.track_id, mdia.hdlr.handler, mdia.mdhd.timescale, and what [init_video] or
    [init_audio] says of its codec ([None]: accepted). *)
Record trak := Trak { tk_id : N; tk_hdlr : handler; tk_scale : N; tk_codec : option N }.
(** [Trex]: the defaults of a track in [moov.mvex]. *)
Record trex := Trex { tx_id : N; tx_dur : N; tx_size : N; tx_flags : N }.
(** [Moov]: the tracks, and [mvex] if present. *)
Record moov := Moov { mv_trak : list trak; mv_mvex : option (list trex) }.
(** One entry of a [Trun]. *)
Record entry := Entry {
  en_dur : option N; en_size : option N; en_flags : option N; en_cts : option Z }.
Record trun := Trun { tr_off : option Z; tr_entries : list entry }.
(** [Traf]: tfhd, tfdt and trun. *)
Record traf := Traf {
  tf_id : N; tf_base : option N; tf_dur : option N; tf_size : option N; tf_flags : option N;
  tf_time : option N; tf_run : option trun }.
Definition moof := list traf.

(** [mp4_atom::Any]: the boxes [process] tells apart (import.rs:354-381). *)
Inductive atom := AType | AMoov (v : moov) | AMoof (f : moof) | AMdat (data : bytes) | AOther.

(** [Any::decode_maybe]: more bytes needed; a box and how many bytes it took; an error. *)
Inductive dres := DNone | DAtom (a : atom) (n : nat) | DFail (e : N).
Notation decoder := (bytes -> dres).

(** [HashMap<u32, A>]: at most one value per key; the order of the entries is not observed. *)
Definition hmap (A : Type) := list (N * A).
Definition hdel {A} (k : N) (h : hmap A) : hmap A := filter (fun p => negb (fst p =? k)) h.
Definition hput {A} (k : N) (a : A) (h : hmap A) : hmap A := (k, a) :: hdel k h.
Definition hget {A} (k : N) (h : hmap A) : option A :=
  option_map snd (find (fun p => fst p =? k) h).

(** import.rs:11-30 [Import].  [im_made]: the tracks made so far by [create_video]/[create_audio],
    a [TrackProducer] is an index into it; [im_log]: every frame written, with its track. *)
Record imp := Imp {
  im_buf : bytes; im_tracks : hmap nat; im_last : hmap N;
  im_moov : option moov; im_moof : option moof; im_moof_size : N;
  im_made : list handler; im_log : list (nat * mframe) }.

(** import.rs:33-43 [Import::new] *)
Definition imp_new : imp := Imp [] [] [] None None 0 [] [].

Definition iwith_buf s x :=
  Imp x (im_tracks s) (im_last s) (im_moov s) (im_moof s) (im_moof_size s) (im_made s) (im_log s).
Definition iwith_last s x :=
  Imp (im_buf s) (im_tracks s) x (im_moov s) (im_moof s) (im_moof_size s) (im_made s) (im_log s).
Definition iwith_moov s x :=
  Imp (im_buf s) (im_tracks s) (im_last s) x (im_moof s) (im_moof_size s) (im_made s) (im_log s).
Definition iwith_moof s x n :=
  Imp (im_buf s) (im_tracks s) (im_last s) (im_moov s) x n (im_made s) (im_log s).
Definition iwith_track s k h :=
  Imp (im_buf s) (hput k (length (im_made s)) (im_tracks s)) (im_last s) (im_moov s) (im_moof s)
      (im_moof_size s) (im_made s ++ [h]) (im_log s).
Definition iwith_log s x :=
  Imp (im_buf s) (im_tracks s) (im_last s) (im_moov s) (im_moof s) (im_moof_size s) (im_made s) x.

(** How a call ends. *)
Inductive iout := IOk | IErr (e : ierror) | IPanic.

(** Unsigned arithmetic on [w]-bit integers. *)
Definition uwrap (m : mode) (w : N) (x : N) : res N :=
  if x <? 2 ^ w then Val x else match m with Debug => Panic | Release => Val (x mod 2 ^ w) end.
Definition uadd m w a b : res N := uwrap m w (a + b).
Definition umul m w a b : res N := uwrap m w (a * b).
Definition usub (m : mode) (w : N) (a b : N) : res N :=
  if b <=? a then Val (a - b)
  else match m with Debug => Panic | Release => Val ((a + 2 ^ w - b) mod 2 ^ w) end.

(** [x as i64] of a [u64], and [x as u64] of an [i64]. *)
Definition as_i64 (n : N) : Z :=
  if n <? 2 ^ 63 then Z.of_N n else (Z.of_N n - 2 ^ 64)%Z.
Definition as_u64 (z : Z) : N := Z.to_N (z mod 2 ^ 64).
(** [a + b] on [i64] *)
Definition iadd64 (m : mode) (a b : Z) : res Z :=
  let s := (a + b)%Z in
  if ((- 2 ^ 63 <=? s) && (s <? 2 ^ 63))%Z then Val s
  else match m with
       | Debug => Panic
       | Release => Val ((s + 2 ^ 63) mod 2 ^ 64 - 2 ^ 63)%Z
       end.

Definition opt_or (o : option N) (d : N) : N := match o with Some n => n | None => d end.

(** import.rs:409-416: the first [trex] with this id; 0 when there is none. *)
Definition trex_of (v : moov) (id : N) : trex :=
  match mv_mvex v with
  | None => Trex id 0 0 0
  | Some l => match find (fun x => tx_id x =? id) l with Some x => x | None => Trex id 0 0 0 end
  end.

(** import.rs:438-446 *)
Definition sample_flags (x : trex) (tf : traf) (e : entry) : N :=
  opt_or (en_flags e) (opt_or (tf_flags tf) (tx_flags x)).
Definition sample_dur (x : trex) (tf : traf) (e : entry) : N :=
  opt_or (en_dur e) (opt_or (tf_dur tf) (tx_dur x)).
Definition sample_size (x : trex) (tf : traf) (e : entry) : N :=
  opt_or (en_size e) (opt_or (tf_size tf) (tx_size x)).

(** import.rs:450-451.  [Timestamp::from_micros(1_000_000 * pts / timescale)], in nanoseconds;
    a division by zero panics in both modes. *)
Definition sample_time (m : mode) (scale dts : N) (e : entry) : res N :=
  match iadd64 m (as_i64 dts) (match en_cts e with Some c => c | None => 0%Z end) with
  | Panic => Panic
  | Val p =>
    match umul m 64 1000000 (as_u64 p) with
    | Panic => Panic
    | Val x => if scale =? 0 then Panic else Val (x / scale * 1000)
    end
  end.

(** import.rs:457-458: depends on no other sample, and is a sync sample. *)
Definition video_key (flags : N) : bool :=
  (N.land (N.shiftr flags 24) 3 =? 2) && negb (N.land (N.shiftr flags 16) 1 =? 1).

(** import.rs:455-482: the new [last_keyframe], and whether the sample is a keyframe.
    [timestamp - *prev] panics when the time goes backwards. *)
Definition sample_key (v : moov) (k : trak) (flags ts : N) (last : hmap N) : res (hmap N * bool) :=
  if is_vide (tk_hdlr k) then
    if video_key flags
    then let last := fold_left (fun l a => if is_soun (tk_hdlr a) then hdel (tk_id a) l else l)
                               (mv_trak v) last in
         Val (hput (tk_id k) ts last, true)
    else Val (last, false)
  else
    match hget (tk_id k) last with
    | Some prev =>
      if ts <? prev then Panic
      else if 10000000000 <? ts - prev then Val (hput (tk_id k) ts last, true) else Val (last, false)
    | None => Val (hput (tk_id k) ts last, true)
    end.

(** [Bytes::slice(a..b)] panics unless a <= b <= len. *)
Definition slice (d : bytes) (a b : N) : res bytes :=
  if (a <=? b) && (b <=? len d) then Val (firstn (N.to_nat (b - a)) (skipn (N.to_nat a) d)) else Panic.

(** The loop body of import.rs:436-503 (without the two time extremes, see [extract]): what is left
    is either the next decode time and offset, or the end of the call. *)
Inductive snext := SMore (dts off : N) | SStop (o : iout).
Definition sample (m : mode) (w : N) (v : moov) (k : trak) (t : nat) (tf : traf) (data : bytes)
    (e : entry) (dts off : N) (s : imp) : imp * snext :=
  let x := trex_of v (tf_id tf) in
  let size := sample_size x tf e in
  match sample_time m (tk_scale k) dts e with
  | Panic => (s, SStop IPanic)
  | Val ts =>
    match uadd m w off size with
    | Panic => (s, SStop IPanic)
    | Val en =>
      if len data <? en then (s, SStop (IErr EInvalidOffset)) else
      match sample_key v k (sample_flags x tf e) ts (im_last s) with
      | Panic => (s, SStop IPanic)
      | Val (last, key) =>
        let s := iwith_last s last in
        match slice data off en with
        | Panic => (s, SStop IPanic)
        | Val payload =>
          match media_header ts with
          | Panic => (s, SStop IPanic)
          | Val _ =>
            let s := iwith_log s (im_log s ++ [(t, MFrame ts key payload)]) in
            match uadd m 64 dts (sample_dur x tf e) with
            | Panic => (s, SStop IPanic)
            | Val dts =>
              match uadd m w off size with
              | Panic => (s, SStop IPanic)
              | Val off => (s, SMore dts off)
              end
            end
          end
        end
      end
    end
  end.

(** import.rs:436-503, the loop over the samples of a run *)
Fixpoint samples (m : mode) (w : N) (v : moov) (k : trak) (t : nat) (tf : traf) (data : bytes)
    (es : list entry) (dts off : N) (s : imp) : imp * iout :=
  match es with
  | [] => (s, IOk)
  | e :: es =>
    match sample m w v k t tf data e dts off s with
    | (s, SMore dts off) => samples m w v k t tf data es dts off s
    | (s, SStop o) => (s, o)
    end
  end.

(** import.rs:423-434: where the run starts in the media data.  The cast of [base_data_offset] to
    [usize] truncates. *)
Inductive oout := OVal (n : N) | OInvalid | OPanic.
Definition run_offset (m : mode) (w : N) (msize hsize : N) (base : option N) (off : option Z) : oout :=
  let base := opt_or base 0 mod 2 ^ w in
  match off with
  | None => OVal base
  | Some d =>
    if (d <? 0)%Z then OInvalid else
    let d := Z.to_N d in
    if d <? msize then OInvalid else
    match usub m w (d - msize) hsize with
    | Panic => OPanic
    | Val x => match uadd m w base x with Panic => OPanic | Val o => OVal o end
    end
  end.

(** import.rs:398-434 and the loop of one [traf] *)
Definition traf_step (m : mode) (w : N) (v : moov) (data : bytes) (hsize : N) (tf : traf) (s : imp)
    : imp * iout :=
  match hget (tf_id tf) (im_tracks s) with
  | None => (s, IErr EUnknownTrack)
  | Some t =>
    match find (fun k => tk_id k =? tf_id tf) (mv_trak v) with
    | None => (s, IErr EUnknownTrack)
    | Some k =>
      match tf_run tf with
      | None => (s, IErr (EMissingBox BTrun))
      | Some run =>
        match tf_time tf with
        | None => (s, IErr (EMissingBox BTfdt))
        | Some dts =>
          match run_offset m w (im_moof_size s) hsize (tf_base tf) (tr_off run) with
          | OInvalid => (s, IErr EInvalidOffset)
          | OPanic => (s, IPanic)
          | OVal off => samples m w v k t tf data (tr_entries run) dts off s
          end
        end
      end
    end
  end.

Fixpoint trafs (m : mode) (w : N) (v : moov) (data : bytes) (hsize : N) (tfs : list traf) (s : imp)
    : imp * iout :=
  match tfs with
  | [] => (s, IOk)
  | tf :: tfs =>
    match traf_step m w v data hsize tf s with
    | (s, IOk) => trafs m w v data hsize tfs s
    | r => r
    end
  end.

(** import.rs:387-513.  Left out: the latency warning of L392-393, L496-511.  It cannot panic:
    [min_timestamp] is only ever set to a time at most the default 0. *)
Definition extract (m : mode) (w : N) (data : bytes) (hsize : N) (s : imp) : imp * iout :=
  match im_moov s with
  | None => (s, IErr (EMissingBox BMoov))
  | Some v =>
    match im_moof s with
    | None => (s, IErr (EMissingBox BMoof))
    | Some f => trafs m w v data hsize f (iwith_moof s None (im_moof_size s))
    end
  end.

(** import.rs:80-98 *)
Fixpoint init_traks (ks : list trak) (s : imp) : imp * iout :=
  match ks with
  | [] => (s, IOk)
  | k :: ks =>
    match tk_hdlr k with
    | Sbtl => (s, IErr (EUnsupportedTrack true))
    | HOther => (s, IErr (EUnsupportedTrack false))
    | h =>
      match tk_codec k with
      | Some n => (s, IErr (ECodec n))
      | None => init_traks ks (iwith_track s (tk_id k) h)
      end
    end
  end.
(** import.rs:78-103 [init] *)
Definition init (v : moov) (s : imp) : imp * iout :=
  match init_traks (mv_trak v) s with
  | (s, IOk) => (iwith_moov s (Some v), IOk)
  | r => r
  end.

(** import.rs:354-384 [process]; [size] is the size of the box. *)
Definition process (m : mode) (w : N) (a : atom) (size : N) (s : imp) : imp * iout :=
  match a with
  | AType | AOther => (s, IOk)
  | AMoov v => init v s
  | AMoof f =>
    match im_moof s with
    | Some _ => (s, IErr (EDuplicateBox BMoof))
    | None => (iwith_moof s (Some f) size, IOk)
    end
  | AMdat data =>
    match usub m w size (len data) with
    | Panic => (s, IPanic)
    | Val hsize => extract m w data hsize s
    end
  end.

(** import.rs:59-76 [parse_inner].  The bytes not consumed are returned instead of how many were.
    [PFuel]: the loop did not end within [fuel] rounds. *)
Inductive pout := POk (rest : bytes) | PErr (e : ierror) | PPanic | PFuel.
Fixpoint parse_inner (dec : decoder) (m : mode) (w : N) (fuel : nat) (b : bytes) (s : imp) : imp * pout :=
  match fuel with
  | O => (s, PFuel)
  | S fuel =>
    match dec b with
    | DFail e => (s, PErr (EMp4 e))
    | DNone => (s, POk b)
    | DAtom a n =>
      match process m w a (N.of_nat n) s with
      | (s, IOk) => parse_inner dec m w fuel (skipn n b) s
      | (s, IErr e) => (s, PErr e)
      | (s, IPanic) => (s, PPanic)
      end
    end
  end.
(** Enough rounds when every box takes at least one byte. *)
Definition enough (b : bytes) : nat := S (length b).

(** import.rs:45-57 [parse].  An error leaves the buffer empty. *)
Definition parse (dec : decoder) (m : mode) (w : N) (data : bytes) (s : imp) : imp * pout :=
  match im_buf s with
  | [] =>
    match parse_inner dec m w (enough data) data s with
    | (s, POk rest) => (iwith_buf s rest, POk rest)
    | r => r
    end
  | _ :: _ =>
    let b := im_buf s ++ data in
    match parse_inner dec m w (enough b) b (iwith_buf s []) with
    | (s, POk rest) => (iwith_buf s rest, POk rest)
    | r => r
    end
  end.

(** A caller that feeds chunks until one fails. *)
Fixpoint feed (dec : decoder) (m : mode) (w : N) (cs : list bytes) (s : imp) : imp * pout :=
  match cs with
  | [] => (s, POk (im_buf s))
  | c :: cs =>
    match parse dec m w c s with
    | (s, POk _) => feed dec m w cs s
    | r => r
    end
  end.

(** import.rs:339-352 [read_from]: [cs] is what the reads return, then the end of the input or an
    error.  Its buffer is its own; the importer's is not used.  A read of no bytes is the end. *)
Inductive rend := REof | RFail (n : N).
Fixpoint read_loop (dec : decoder) (m : mode) (w : N) (cs : list bytes) (fin : rend) (buf : bytes) (s : imp)
    : imp * pout :=
  match cs with
  | [] => match fin with REof => (s, POk buf) | RFail n => (s, PErr (EIo n)) end
  | c :: cs =>
    match c with
    | [] => (s, POk buf)
    | _ :: _ =>
      let b := buf ++ c in
      match parse_inner dec m w (enough b) b s with
      | (s, POk rest) => read_loop dec m w cs fin rest s
      | r => r
      end
    end
  end.
Definition read_from (dec : decoder) (m : mode) (w : N) (cs : list bytes) (fin : rend) (s : imp) : imp * pout :=
  match read_loop dec m w cs fin [] s with
  | (s, POk (_ :: _)) => (s, PErr ETrailingData)
  | r => r
  end.

(** import.rs:332-336 [init_from] reads an [ftyp] and a [moov] with the async reader of [mp4_atom],
    then is [init]; the reader is not modelled. *)
