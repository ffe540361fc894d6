(** A live media track seen from anywhere: the media writer (rs/hang/src/model/track.rs:20-43) on the
    application's track of [Net], and media readers (track.rs:56-147) on any of its copies.

    The writer does one critical section at a time, as in [Media]; a read is a sequence of polls, as in
    [MediaRead], whose answers now come from the copy of the track.  Nobody else writes to the track. *)
From Coq Require Import NArith List Bool Arith.
From Coq Require Import Init.Byte Strings.Byte.
From Verif.Model Require Import Base Coding Message ErrorCode Stream Frame FrameSys TrackSys Media Publisher Transfer Net.
From Verif.Model Require MediaRead.
Import ListNotations.
Open Scope nat_scope.

(** A media reader (track.rs:56-70) at node [vw_node], reading with consumer [vw_cons].  [MediaRead] stands
    for a payload by its place; [vw_groups]: the groups it was given, [vw_read]: the frames it has taken
    from them, by place. *)
Record view := View {
  vw_node : nat; vw_cons : nat; vw_groups : list group; vw_reader : MediaRead.reader;
  vw_read : list (N * nat * mframe) }.

(** [lv_cur], [lv_job]: as in [Media]; [lv_gone]: the writer was dropped, or panicked and was dropped. *)
Record live := Live {
  lv_net : net; lv_cur : option nat; lv_job : option (stage * mframe); lv_gone : bool; lv_views : list view }.
Definition live_new : live := Live net_new None None false [].

Inductive lop :=
| LWrite (f : mframe)                       (* call write: everything before its first critical section *)
| LStep                                     (* the next critical section of the write in progress *)
| LDrop                                     (* the writer is dropped *)
| LNet (o : nop)                            (* something else happens in the network *)
| LView (i p : nat)                         (* a media reader is made at node [i] (track.rs:45-47) *)
| LLatency (v : nat) (d : N)                (* set_latency *)
| LPoll (v fuel : nat) (order : list nat).  (* a poll of read; its pending groups are polled in this order *)

Inductive lout :=
| LUnit | LPanic | LBad
| LShown (seq : N) (k : nat) (f : mframe)   (* read returned a frame: the [k]-th of group [seq] *)
| LEnd | LErr                               (* read returned *)
| LAgain | LWait                            (* round the loop; pending *)
| LHang.                                    (* never comes back (buffer_frames_until) *)

Definition with_net s n := Live n (lv_cur s) (lv_job s) (lv_gone s) (lv_views s).
Definition with_job s n cur job := Live n cur job (lv_gone s) (lv_views s).
Definition with_views s n vs := Live n (lv_cur s) (lv_job s) (lv_gone s) vs.

(** * The writer *)

(** An operation of the writer succeeded. *)
Definition fine (x : nout) : bool :=
  match no_note x, no_did x with
  | NBad, _ => false
  | _, [] => true
  | _, [(_, (_, TUnit))] | _, [(_, (_, TAppended _))] => true
  | _, _ => false
  end.

(** What a critical section does to the network, with the group and the number of the newest frame in it. *)
Definition section (n : net) (cur : option nat) (j : stage) (f : mframe) : list nop :=
  let g := match cur with Some g => g | None => 0 end in
  let gs := nth 0 (nt_groups n) [] in
  let k := match nth_error gs g with Some h => pred (length (rg_frames h)) | None => 0 end in
  match j with
  | SFinish => [NFill g (GEnd Finished)]                                             (* track.rs:25-29 *)
  | SAppend1 => [NUse 0 (TAppend1 0)]                                                (* 33 *)
  | SAppend2 => [NGroup; NUse 0 (TAppend2 0 (length gs))]
  | SCreate => [NFill g (GFrame (media_size f))]                                     (* 36-37 *)
  | SHeader => [NFill g (GWrite k (header_of f))]                                    (* 38 *)
  | SPayload => [NFill g (GWrite k (mf_data f))]                                     (* 39 *)
  | SEnd => [NFill g (GDone k)]                                                      (* 40 *)
  end.
(** And to the writer's own fields. *)
Definition after (n : net) (cur : option nat) (j : stage) (f : mframe) : option nat * option (stage * mframe) :=
  match j with
  | SFinish => (None, Some (SAppend1, f))
  | SAppend1 => (cur, Some (SAppend2, f))
  | SAppend2 => (Some (length (nth 0 (nt_groups n) [])), Some (SCreate, f))
  | SCreate => (cur, Some (SHeader, f))
  | SHeader => (cur, Some (SPayload, f))
  | SPayload => (cur, Some (SEnd, f))
  | SEnd => (cur, None)                                                              (* 42 *)
  end.

(** Dropping the writer drops its group, whose readers are then told [Cancel], and its track. *)
Definition gone (m : mode) (w : N) (s : live) (n : net) : live :=
  let ops := match lv_cur s with Some g => [NFill g (GEnd (Failed Cancel))] | None => [] end ++ [NUse 0 (TDrop 0)] in
  Live (fst (nrun m w n ops)) None None true (lv_views s).

(** * The readers *)

(** moq's [read_frame] for the [k]-th frame of a group (rs/moq/src/model/group.rs:169-214).  A reader that got
    an error gets it again. *)
Definition payload_at (h : rgroup) (k : nat) : await (option bytes) :=
  match nth_error (rg_frames h) k with
  | Some (_, st) =>
      match fs_closed st with
      | Some Finished => AOk (Some (concat (fs_chunks st)))
      | Some (Failed e) => AErr e
      | None => APending
      end
  | None =>
      match rg_closed h with
      | Some Finished => AOk None
      | Some (Failed e) => AErr e
      | None => APending
      end
  end.
(** rs/hang/src/model/group.rs:40-59 *)
Definition frame_at (h : rgroup) (k : nat) : option mframe :=
  match payload_at h k with AOk (Some b) => media_decode k b | _ => None end.
Definition answer (h : rgroup) (k : nat) : MediaRead.fans :=
  match payload_at h k with
  | AOk (Some b) => match media_decode k b with Some f => MediaRead.FFrame (mf_ts f) | None => MediaRead.FFail end
  | AOk None => MediaRead.FEnd
  | AErr _ => MediaRead.FFail
  | APending | AFuel => MediaRead.FWait
  end.

(** The content of the group numbered [seq] that the reader was given. *)
Definition content (n : net) (v : view) (seq : N) : option rgroup :=
  match find (fun g => N.eqb (g_seq g) seq) (vw_groups v) with
  | Some g => nth_error (nth (vw_node v) (nt_groups n) []) (g_id g)
  | None => None
  end.
Definition answer_of (n : net) (v : view) (seq : N) (k : nat) : MediaRead.fans :=
  match content n v seq with Some h => answer h k | None => MediaRead.FWait end.
(** All that it can answer now, from the [k]-th frame on. *)
Definition answers (n : net) (v : view) (g : MediaRead.rgroup) : list MediaRead.fans :=
  match content n v (MediaRead.rg_seq g) with
  | Some h => map (answer h) (seq (MediaRead.rg_index g) (S (length (rg_frames h)) - MediaRead.rg_index g))
  | None => []
  end.

Definition is_place (q : N) (k : nat) (x : N * nat * mframe) : bool := N.eqb (fst (fst x)) q && Nat.eqb (snd (fst x)) k.
Definition recall (l : list (N * nat * mframe)) (q : N) (k : nat) : option mframe :=
  option_map snd (find (is_place q k) l).
(** The frames a group reader has taken so far. *)
Definition take (n : net) (v : view) (l : list (N * nat * mframe)) (g : MediaRead.rgroup) : list (N * nat * mframe) :=
  fold_left (fun l k =>
    match recall l (MediaRead.rg_seq g) k, content n v (MediaRead.rg_seq g) with
    | None, Some h => match frame_at h k with Some f => l ++ [(MediaRead.rg_seq g, k, f)] | None => l end
    | _, _ => l
    end) (seq 0 (MediaRead.rg_index g)) l.
Definition groups_in (r : MediaRead.reader) : list MediaRead.rgroup :=
  match MediaRead.rd_cur r with Some g => [g] | None => [] end ++ MediaRead.rd_pending r.

(** What the current group answers, if it is asked before [next_group] (track.rs:96-108, biased). *)
Definition current (n : net) (v : view) : option MediaRead.fans :=
  let r := vw_reader v in
  if N.ltb MediaRead.duration_max (MediaRead.rd_max r + MediaRead.rd_lat r) then Some MediaRead.FWait   (* panics: 85 *)
  else match MediaRead.rd_cur r with
       | None => None
       | Some g => match MediaRead.rg_buf g, answer_of n v (MediaRead.rg_seq g) (MediaRead.rg_index g) with
                   | [], MediaRead.FWait => None
                   | _, a => Some a
                   end
       end.

(** [None]: there is no such consumer. *)
Definition next_answer (x : nout) : option (MediaRead.nans * list group) :=
  match no_did x with
  | [(_, (_, TGot (AOk (Some g))))] => Some (MediaRead.NGroup (g_seq g), [g])
  | [(_, (_, TGot (AOk None)))] => Some (MediaRead.NEnd, [])
  | [(_, (_, TGot (AErr _)))] => Some (MediaRead.NFail, [])
  | [(_, (_, TGot _))] => Some (MediaRead.NWait, [])
  | _ => None
  end.

(** What [read] did, the reader now being [v]. *)
Definition result (v : view) (x : MediaRead.rout) : lout :=
  match x with
  | MediaRead.RGot f =>
      match recall (vw_read v) (MediaRead.rf_seq f) (MediaRead.rf_idx f) with
      | Some mf => LShown (MediaRead.rf_seq f) (MediaRead.rf_idx f) mf
      | None => LBad
      end
  | MediaRead.REnd => LEnd
  | MediaRead.RErr => LErr
  | MediaRead.RMove | MediaRead.RArrived _ | MediaRead.RSkip _ => LAgain
  | MediaRead.RWait => LWait
  | MediaRead.RHang => LHang
  | MediaRead.RPanics => LPanic
  | MediaRead.RUnit => LUnit
  end.

(** The reader of [v] performs [o]; [gs]: the group it was just given. *)
Definition perform (n : net) (v : view) (gs : list group) (o : MediaRead.rop) : view * lout :=
  let v := View (vw_node v) (vw_cons v) (vw_groups v ++ gs) (vw_reader v) (vw_read v) in
  let (r, x) := MediaRead.rstep (vw_reader v) o in
  let v := View (vw_node v) (vw_cons v) (vw_groups v) r (fold_left (take n v) (groups_in r) (vw_read v)) in
  (v, result v x).

(** track.rs:83-147, one poll *)
Definition view_poll (m : mode) (w : N) (n : net) (v : view) (fuel : nat) (order : list nat) : net * (view * lout) :=
  match current n v with
  | Some a => (n, perform n v [] (MediaRead.RPoll fuel a MediaRead.NWait []))
  | None =>
      let (n1, x) := nstep m w n (NUse (vw_node v) (TNext (vw_cons v))) in
      match next_answer x with
      | None => (n1, (v, LBad))
      | Some (a, gs) =>
      let bufs := flat_map (fun i => match nth_error (MediaRead.rd_pending (vw_reader v)) i with
                                     | Some g => [(i, answers n1 v g)]
                                     | None => []
                                     end) (nodup Nat.eq_dec order) in
      (n1, perform n1 v gs (MediaRead.RPoll fuel MediaRead.FWait a bufs))
      end
  end.

(** * Steps *)

(** The rest of the world does not write to the track, and leaves the readers' handles alone. *)
Definition allowed (s : live) (o : nop) : bool :=
  match o with
  | NGroup | NFill _ _ => false
  | NUse i o =>
      match o with
      | TInsert _ _ | TAppend1 _ | TAppend2 _ _ => negb (Nat.eqb i 0)
      | TFinish p | TAbort p _ | TDrop p => negb (Nat.eqb i 0 && Nat.eqb p 0)
      | TNext c | TClosed c | TCClone c | TCDrop c =>
          negb (existsb (fun v => Nat.eqb (vw_node v) i && Nat.eqb (vw_cons v) c) (lv_views s))
      | _ => true
      end
  | _ => true
  end.

Definition lstep (m : mode) (w : N) (s : live) (o : lop) : live * lout :=
  match o with
  | LWrite f =>
      match lv_job s, lv_gone s with
      | None, false =>
          match media_header (mf_ts f) with
          | Panic => (gone m w s (lv_net s), LPanic)                                   (* track.rs:21-23 *)
          | Val _ =>
              let j := match lv_cur s with
                       | Some _ => if mf_key f then SFinish else SCreate
                       | None => SAppend1
                       end in
              (with_job s (lv_net s) (lv_cur s) (Some (j, f)), LUnit)
          end
      | _, _ => (s, LBad)                                                              (* [&mut self] *)
      end
  | LStep =>
      match lv_job s with
      | None => (s, LBad)
      | Some (j, f) =>
          let (n, tr) := nrun m w (lv_net s) (section (lv_net s) (lv_cur s) j f) in
          if forallb (fun e => fine (snd e)) tr then
            let (cur, job) := after (lv_net s) (lv_cur s) j f in (with_job s n cur job, LUnit)
          else (gone m w s n, LPanic)
      end
  | LDrop =>
      match lv_job s, lv_gone s with
      | None, false => (gone m w s (lv_net s), LUnit)
      | _, _ => (s, LBad)
      end
  | LNet o =>
      if allowed s o then (with_net s (fst (nstep m w (lv_net s) o)), LUnit) else (s, LBad)
  | LView i p =>
      match nth_error (nt_tracks (lv_net s)) i with
      | None => (s, LBad)
      | Some t =>
          let (n, x) := nstep m w (lv_net s) (NUse i (TConsume p)) in
          match no_did x with
          | [(_, (_, TUnit))] =>
              (with_views s n (lv_views s ++ [View i (length (ts_cons t)) [] MediaRead.rd_new []]), LUnit)
          | _ => (with_net s n, LBad)
          end
      end
  | LLatency v d =>
      match nth_error (lv_views s) v with
      | None => (s, LBad)
      | Some vw =>
          let (vw, x) := perform (lv_net s) vw [] (MediaRead.RLatency d) in
          (with_views s (lv_net s) (set_nth v vw (lv_views s)), x)
      end
  | LPoll v fuel order =>
      match nth_error (lv_views s) v with
      | None => (s, LBad)
      | Some vw =>
          let '(n, (vw, x)) := view_poll m w (lv_net s) vw fuel order in
          (with_views s n (set_nth v vw (lv_views s)), x)
      end
  end.

Fixpoint lrun (m : mode) (w : N) (s : live) (ops : list lop) : live * list (lop * lout) :=
  match ops with
  | [] => (s, [])
  | o :: ops => let (s1, x) := lstep m w s o in let (s2, tr) := lrun m w s1 ops in (s2, (o, x) :: tr)
  end.
