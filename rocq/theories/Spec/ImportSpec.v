(** What importing fragmented MP4 means, stated on the boxes and the bytes, in unbounded integers. *)
From Coq Require Import NArith ZArith List Bool.
From Coq Require Import Init.Byte Strings.Byte.
From Verif.Model Require Import Base Media Import.
Import ListNotations.
Open Scope N_scope.

(** * C64 *)

(** There is nothing in no bytes; a box or an error, once found in a prefix of the input, does not
    change with more input; a box takes at least one byte. *)
Definition stable (dec : decoder) : Prop :=
  dec [] = DNone /\
  forall b, match dec b with
            | DNone => True
            | DAtom a n => (0 < n <= length b)%nat /\ forall c, dec (b ++ c) = DAtom a n
            | DFail e => forall c, dec (b ++ c) = DFail e
            end.

(** The boxes of a byte string, each with its size, and what comes after them: bytes that are not a
    whole box yet, or a malformed box. *)
Inductive cut_end := CRest (r : bytes) | CBad (e : N).
Inductive cut (dec : decoder) : bytes -> list (atom * nat) -> cut_end -> Prop :=
| cut_rest b : dec b = DNone -> cut dec b [] (CRest b)
| cut_bad b e : dec b = DFail e -> cut dec b [] (CBad e)
| cut_box b a n l e : dec b = DAtom a n -> cut dec (skipn n b) l e -> cut dec b ((a, n) :: l) e.

(** Handing boxes to the importer until one is refused. *)
Fixpoint boxes (m : mode) (w : N) (l : list (atom * nat)) (s : imp) : imp * iout :=
  match l with
  | [] => (s, IOk)
  | (a, n) :: l =>
    match process m w a (N.of_nat n) s with
    | (s, IOk) => boxes m w l s
    | r => r
    end
  end.
(** What importing the boxes [l] followed by [e] comes to. *)
Definition imported (m : mode) (w : N) (l : list (atom * nat)) (e : cut_end) (s : imp) : imp * pout :=
  match boxes m w l s with
  | (s, IOk) =>
    match e with
    | CRest r => (iwith_buf s r, POk r)
    | CBad x => (s, PErr (EMp4 x))
    end
  | (s, IErr x) => (s, PErr x)
  | (s, IPanic) => (s, PPanic)
  end.

(** The box framing of ISO/IEC 14496-12, 4.2: a 32-bit size, a type, and a 64-bit size if the first
    is 1; a size of 0 means "to the end of the file".  [body] decodes a whole box.  With [open] a
    decoder takes a box of size 0 to be all the bytes it has; without, it refuses it. *)
Definition iso_body (body : bytes -> atom + N) (b : bytes) (n : nat) : dres :=
  match body (firstn n b) with inl a => DAtom a n | inr e => DFail e end.
Definition iso_size (size least : N) (body : bytes -> atom + N) (b : bytes) : dres :=
  if size <? least then DFail 0
  else if len b <? size then DNone
  else iso_body body b (N.to_nat size).
Definition iso_dec (open : bool) (body : bytes -> atom + N) (b : bytes) : dres :=
  if len b <? 8 then DNone
  else if be_value (firstn 4 b) =? 0 then (if open then iso_body body b (length b) else DFail 1)
  else if be_value (firstn 4 b) =? 1 then
    (if len b <? 16 then DNone else iso_size (be_value (firstn 8 (skipn 8 b))) 16 body b)
  else iso_size (be_value (firstn 4 b)) 8 body b.

(** * C65: what a fragment header assigns to its samples *)

Definition pick (l : list (option N)) : N :=
  match flat_map (fun o => match o with Some n => [n] | None => [] end) l with
  | [] => 0
  | n :: _ => n
  end.
(** The defaults of the track with this id in the file header. *)
Definition default_of (f : trex -> N) (v : moov) (id : N) : option N :=
  match mv_mvex v with
  | None => None
  | Some l => match filter (fun x => tx_id x =? id) l with [] => None | x :: _ => Some (f x) end
  end.
Definition size_of (v : moov) (tf : traf) (e : entry) : N :=
  pick [en_size e; tf_size tf; default_of tx_size v (tf_id tf)].
Definition dur_of (v : moov) (tf : traf) (e : entry) : N :=
  pick [en_dur e; tf_dur tf; default_of tx_dur v (tf_id tf)].
Definition flags_of (v : moov) (tf : traf) (e : entry) : N :=
  pick [en_flags e; tf_flags tf; default_of tx_flags v (tf_id tf)].
Definition cts_of (e : entry) : Z := match en_cts e with Some c => c | None => 0%Z end.

Fixpoint total (l : list N) : N := match l with [] => 0 | n :: l => n + total l end.
(** The sum of the first [i] sizes, or durations. *)
Definition before (i : nat) (f : entry -> N) (es : list entry) : N := total (map f (firstn i es)).

(** A sample: its track, its presentation time in microseconds, and its byte range in the media
    data, counted from the first byte of that data. *)
Record place := Place { pl_track : nat; pl_us : Z; pl_from : Z; pl_size : N }.

(** Where a run starts in the media data, by ISO/IEC 14496-12, 8.8.7.1 and 8.8.8.1: offsets count from
    [base_data_offset], which is a position in the file, or else from the start of the [moof], which is
    at [pos] in the file; the media data comes after the [moof] and the header of the [mdat]. *)
Definition iso_from (pos msize hsize : N) (base : option N) (off : option Z) : Z :=
  (match base with Some n => Z.of_N n | None => Z.of_N pos end +
   match off with Some d => d | None => 0 end - Z.of_N (pos + msize + hsize))%Z.
(** The importer's rule: [base_data_offset] counts as extra distance, and without an offset a run starts
    at the start of the media data. *)
Definition run_from (msize hsize : N) (base : option N) (off : option Z) : Z :=
  (Z.of_N (pick [base]) +
   match off with Some d => d - Z.of_N msize - Z.of_N hsize | None => 0 end)%Z.
(** Fragments on which the two agree. *)
Definition plain (tf : traf) : Prop :=
  tf_base tf = None /\ forall run, tf_run tf = Some run -> tr_off run <> None.

Definition dts_at (v : moov) (tf : traf) (t0 : N) (es : list entry) (i : nat) : N :=
  t0 + before i (dur_of v tf) es.
Definition place_at (v : moov) (tf : traf) (t : nat) (scale t0 : N) (from : Z) (es : list entry)
    (i : nat) (e : entry) : place :=
  Place t
    (1000000 * (Z.of_N (dts_at v tf t0 es i) + cts_of e) / Z.of_N scale)%Z
    (from + Z.of_N (before i (size_of v tf) es))%Z
    (size_of v tf e).

Definition indexed {A} (l : list A) : list (nat * A) := combine (seq 0 (length l)) l.

(** What a [traf] needs to be read: a known track, a run and a decode time, and an offset past the
    end of the [moof]. *)
Definition resolved (v : moov) (tracks : hmap nat) (msize : N) (tf : traf)
    : option (nat * trak * N * trun) :=
  match hget (tf_id tf) tracks, find (fun k => tk_id k =? tf_id tf) (mv_trak v), tf_run tf, tf_time tf with
  | Some t, Some k, Some run, Some t0 =>
    match tr_off run with
    | Some d => if (d <? Z.of_N msize)%Z then None else Some (t, k, t0, run)
    | None => Some (t, k, t0, run)
    end
  | _, _, _, _ => None
  end.
Definition places_of (rule : option N -> option Z -> Z) (v : moov) (tracks : hmap nat) (msize : N) (tf : traf)
    : list place :=
  match resolved v tracks msize tf with
  | None => []
  | Some (t, k, t0, run) =>
    let from := rule (tf_base tf) (tr_off run) in
    map (fun p => place_at v tf t (tk_scale k) t0 from (tr_entries run) (fst p) (snd p))
        (indexed (tr_entries run))
  end.
Definition good (v : moov) (tracks : hmap nat) (msize : N) (tf : traf) : bool :=
  match resolved v tracks msize tf with Some _ => true | None => false end.
(** The fragments before the first one that cannot be read. *)
Fixpoint leading {A} (p : A -> bool) (l : list A) : list A :=
  match l with
  | [] => []
  | a :: l => if p a then a :: leading p l else []
  end.
Definition places (rule : option N -> option Z -> Z) (v : moov) (tracks : hmap nat) (msize : N) (f : moof)
    : list place :=
  flat_map (places_of rule v tracks msize) (leading (good v tracks msize) f).

Definition inside (data : bytes) (p : place) : Prop :=
  (0 <= pl_from p /\ pl_from p + Z.of_N (pl_size p) <= Z.of_nat (length data))%Z.
(** The bytes of a range. *)
Definition bytes_at (data : bytes) (from : Z) (n : N) : bytes :=
  firstn (N.to_nat n) (skipn (Z.to_nat from) data).
(** A frame written for a sample. *)
Definition written_for (data : bytes) (p : place) (x : nat * mframe) : Prop :=
  inside data p /\
  fst x = pl_track p /\
  mf_data (snd x) = bytes_at data (pl_from p) (pl_size p) /\
  Z.of_N (mf_ts (snd x)) = (pl_us p * 1000)%Z.

(** How importing a fragment whose samples are at [P] ends after [n] samples: all were imported; or the
    next one is outside the data; or what follows cannot be read. *)
Definition ends (v : moov) (tracks : hmap nat) (msize : N) (P : list place) (data : bytes) (f : moof)
    (n : nat) (o : iout) : Prop :=
  match o with
  | IOk => n = length P /\ forallb (good v tracks msize) f = true
  | IErr e =>
    (e = EInvalidOffset /\ exists p, nth_error P n = Some p /\ ~ inside data p) \/
    (n = length P /\ forallb (good v tracks msize) f = false)
  | IPanic => False
  end.

(** Values the header fields can have: [base_data_offset] fits in memory addresses ([w] bits),
    composition offsets are 32-bit, decode times stay below 2^63. *)
Definition fields (w : N) (v : moov) (tf : traf) : Prop :=
  (forall n, tf_base tf = Some n -> n < 2 ^ w) /\
  (forall run t0, tf_run tf = Some run -> tf_time tf = Some t0 ->
     t0 + total (map (dur_of v tf) (tr_entries run)) < 2 ^ 63 /\
     Forall (fun e => (- 2 ^ 31 <= cts_of e < 2 ^ 31)%Z) (tr_entries run)).

(** * C66 *)

(** What one sample must satisfy not to hit a panic, in exact arithmetic: a timescale, a presentation
    time that is not negative and fits after scaling, a wire timestamp that fits a varint, and a
    range below the size of the address space. *)
Definition calm (w : N) (scale : N) (pts : Z) (from : Z) (size : N) : Prop :=
  0 < scale /\
  (0 <= pts /\ 1000000 * pts < 2 ^ 64)%Z /\
  (1000000 * pts / Z.of_N scale < 2 ^ 62)%Z /\
  (from + Z.of_N size < 2 ^ Z.of_N w)%Z.
Definition calm_traf (w : N) (v : moov) (tracks : hmap nat) (msize hsize : N) (tf : traf) : Prop :=
  forall t k t0 run, resolved v tracks msize tf = Some (t, k, t0, run) ->
    let from := run_from msize hsize (tf_base tf) (tr_off run) in
    (forall d, tr_off run = Some d -> (Z.of_N (msize + hsize) <= d)%Z) /\
    (from < 2 ^ Z.of_N w)%Z /\
    forall i e, nth_error (tr_entries run) i = Some e ->
      calm w (tk_scale k) (Z.of_N (dts_at v tf t0 (tr_entries run) i) + cts_of e)
           (from + Z.of_N (before i (size_of v tf) (tr_entries run))) (size_of v tf e).

(** The samples of tracks that are not video, as track id and time in microseconds. *)
Definition audio_of (v : moov) (tracks : hmap nat) (msize hsize : N) (tf : traf) : list (N * Z) :=
  match resolved v tracks msize tf with
  | Some (_, k, _, _) =>
    match tk_hdlr k with
    | Vide => []
    | _ => map (fun p => (tf_id tf, pl_us p)) (places_of (run_from msize hsize) v tracks msize tf)
    end
  | None => []
  end.
Definition audio_times (v : moov) (tracks : hmap nat) (msize hsize : N) (f : moof) : list (N * Z) :=
  flat_map (audio_of v tracks msize hsize) (leading (good v tracks msize) f).
(** The time of audio does not go back, neither within the fragment nor behind [last]. *)
Definition forward (last : hmap N) (l : list (N * Z)) : Prop :=
  ForallOrdPairs (fun a b => fst a = fst b -> (snd a <= snd b)%Z) l /\
  Forall (fun a => forall ns, hget (fst a) last = Some ns -> (Z.of_N ns <= snd a * 1000)%Z) l.

Definition safe (w : N) (hsize : N) (s : imp) : Prop :=
  forall v f, im_moov s = Some v -> im_moof s = Some f ->
    let lead := leading (good v (im_tracks s) (im_moof_size s)) f in
    Forall (fields w v) lead /\
    Forall (calm_traf w v (im_tracks s) (im_moof_size s) hsize) lead /\
    forward (im_last s) (audio_times v (im_tracks s) (im_moof_size s) hsize f).
