(** One track carried over any tree of sessions: the application's copy, and the copies made by
    subscribing over a session to another copy (rs/moq/src/session/publisher.rs:131-280,
    rs/moq/src/session/subscriber.rs:126-281).  Composes TrackSys.v (every copy), Publisher.v (the
    serving loop of every session) and Transfer.v (every group stream).

    Node 0 is the application's track; link [l] is a subscription that fills node [S l] from an earlier
    node.  Sessions carry many subscriptions; their ids keep them apart (SubscriberSys.v), so every link
    is modelled alone.  Both ends run this code; the transport delivers a prefix of what was written. *)
From Coq Require Import NArith ZArith List Bool.
From Coq Require Import Init.Byte Strings.Byte.
From Verif.Model Require Import Base Coding Message ErrorCode Stream Frame FrameSys TrackSys Publisher Transfer.
Import ListNotations.
Open Scope nat_scope.

(** * State *)

(** A stream opened by [run_track] (publisher.rs:180-213).
    [st_src]: which group of the source node it serves; [st_cancelled]: its future was dropped;
    [st_lost]: its future failed (no stream within a second, 183-190, or a failed write);
    [st_seen], [st_over]: the bytes the receiver has been given, whether its task is over;
    [st_at]: [None] until the receiver has read the header, then the group it made (subscriber.rs:215-223)
    or [Some None] if it refused. *)
Record stream := Strm {
  st_seq : N; st_src : nat; st_cancelled : bool; st_lost : bool;
  st_seen : bytes; st_over : bool; st_at : option (option nat) }.

(** The task of the subscriber: waiting (166-169), it has ended the track (171-184), its entry in the
    map is removed (146). *)
Inductive lphase := LRunning | LEnded | LRemoved.

(** [ln_cons]: the consumer the publisher reads the source with (publisher.rs:139).
    [ln_over]: how the publisher's loop was left; [Some None]: it returned Ok. *)
Record link := Link {
  ln_src : nat; ln_cons : nat; ln_id : N; ln_prio : N;
  ln_serve : tserve; ln_streams : list stream; ln_over : option (option error); ln_phase : lphase }.

(** [nt_groups]: for every node the groups made there; [TrackSys.g_id] is the position. *)
Record net := Net { nt_tracks : list tsys; nt_groups : list (list rgroup); nt_links : list link }.
Definition net_new : net := Net [tsys_new] [[]] [].

(** * Operations *)

(** What the application does with a group (model/group.rs:83-120, model/frame.rs:75-93).  Every frame has
    one writer here (FrameSys.v has clones), and what has ended is not touched again (GroupSys.v). *)
Inductive gop :=
| GFrame (size : N) | GWrite (f : nat) (c : bytes) | GDone (f : nat) | GAbort (f : nat) (e : error)
| GEnd (o : outcome).

Inductive nop :=
| NGroup                                 (* the application makes a group *)
| NFill (j : nat) (o : gop)              (* and fills it *)
| NUse (i : nat) (o : top)               (* a handle of node [i] is used *)
| NOpen (i p : nat) (id prio : N)        (* somebody subscribes to node [i] over a session *)
| NPoll (l : nat)                        (* the publisher of link [l] polls next_group (publisher.rs:167) *)
| NDone (l : nat) (newer lost : bool)    (* one of its two futures completes (222-228) *)
| NStop (l : nat)                        (* the request stream ends (149-152), or the session is gone *)
| NArrive (l k : nat) (live canc : bool) (sched : list accept) (r : reader)
    (* the receiver of the [k]-th stream has now been given [r], the sender having written by [sched] *)
| NEnd (l : nat) (clean : bool)          (* the subscriber learns that the request ended, or cancels it *)
| NRemove (l : nat).                     (* and removes its entry *)

Inductive arrived := AWaits | ANew (g : group) | AMore (j : nat) | ARefused (e : error) | APanics.

(** [no_did]: the operations on tracks that were performed. *)
Inductive note := NNone | NBad | NTurn (x : sout) | NGiven (a : arrived).
Record nout := NOut { no_did : list (nat * (top * tout)); no_note : note }.

(** * Contents *)

(** frame.rs:75-93 with one handle, whose counter is the number of bytes written; [None]: a panic, or the
    frame has ended.  (After a panicking write the real counter stays too high.) *)
Definition fill_frame (w : N) (o : gop) (f : N * frame_state) : option (N * frame_state) :=
  let (size, st) := f in
  let written := N.of_nat (length (concat (fs_chunks st))) in
  match fs_closed st with
  | Some _ => None
  | None =>
    match o with
    | GWrite _ c => match snd (frame_write w size written c st) with Val st => Some (size, st) | Panic => None end
    | GDone _ => match frame_finish w size written st with Val st => Some (size, st) | Panic => None end
    | GAbort _ e => Some (size, frame_abort e st)
    | _ => None
    end
  end.

(** group.rs:91-114; a frame may go on after its group has ended. *)
Definition fill (w : N) (o : gop) (g : rgroup) : option rgroup :=
  match o with
  | GFrame size => match rg_closed g with
                   | None => Some (RGroup (rg_frames g ++ [(size, frame_new)]) None)
                   | Some _ => None
                   end
  | GEnd e => match rg_closed g with None => Some (RGroup (rg_frames g) (Some e)) | Some _ => None end
  | GWrite f _ | GDone f | GAbort f _ =>
      match nth_error (rg_frames g) f with
      | Some x => match fill_frame w o x with
                  | Some x => Some (RGroup (set_nth f x (rg_frames g)) (rg_closed g))
                  | None => None
                  end
      | None => None
      end
  end.

(** * Steps *)

Definition with_tracks s x := Net x (nt_groups s) (nt_links s).
Definition with_groups s x := Net (nt_tracks s) x (nt_links s).
Definition with_links s x := Net (nt_tracks s) (nt_groups s) x.

(** One operation on the track of node [i]. *)
Definition at_track (m : mode) (i : nat) (o : top) (s : net) : net * tout :=
  match nth_error (nt_tracks s) i with
  | Some t => let (t', x) := tstep m t o in (with_tracks s (set_nth i t' (nt_tracks s)), x)
  | None => (s, TBad)
  end.

(** The consumers owned by links are used by their publishers alone. *)
Definition owned (s : net) (i c : nat) : bool :=
  existsb (fun l => Nat.eqb (ln_src l) i && Nat.eqb (ln_cons l) c) (nt_links s).

(** The application may do anything with its track, inserting groups it has made.  The other tracks have
    three producers: 0 in [run_subscribe] (subscriber.rs:154), 1 in the map (155), 2 in the broadcast that
    was asked for the track (model/broadcast.rs:179-205); only the last is used from outside, to get
    consumers. *)
Definition may_use (s : net) (i : nat) (o : top) : bool :=
  match o with
  | TNext c | TClosed c | TCClone c | TCDrop c => negb (owned s i c)
  | TConsume p => Nat.eqb i 0 || Nat.eqb p 2
  | TInsert _ g => Nat.eqb i 0 && Nat.ltb (g_id g) (length (nth 0 (nt_groups s) []))
  | TAppend2 _ id => Nat.eqb i 0 && Nat.ltb id (length (nth 0 (nt_groups s) []))
  | _ => Nat.eqb i 0
  end.

Definition with_serve (ln : link) (t : tserve) (ss : list stream) (over : option (option error)) : link :=
  Link (ln_src ln) (ln_cons ln) (ln_id ln) (ln_prio ln) t ss over (ln_phase ln).
Definition with_streams (ln : link) (ss : list stream) : link := with_serve ln (ln_serve ln) ss (ln_over ln).
Definition with_phase (ln : link) (p : lphase) : link :=
  Link (ln_src ln) (ln_cons ln) (ln_id ln) (ln_prio ln) (ln_serve ln) (ln_streams ln) (ln_over ln) p.

Definition cancel (st : stream) : stream :=
  Strm (st_seq st) (st_src st) true (st_lost st) (st_seen st) (st_over st) (st_at st).
Definition lose (st : stream) : stream :=
  Strm (st_seq st) (st_src st) (st_cancelled st) true (st_seen st) (st_over st) (st_at st).
Definition strm_new (g : group) : stream := Strm (g_seq g) (g_id g) false false [] false None.

Definition at_stream (f : stream -> stream) (k : nat) (ss : list stream) : list stream :=
  match nth_error ss k with Some st => set_nth k (f st) ss | None => ss end.
Definition cancel_all (ks : list nat) (ss : list stream) : list stream :=
  fold_left (fun ss k => at_stream cancel k ss) ks ss.

(** What a turn of the loop does to the streams and to how the loop stands. *)
Definition turn (m : mode) (ln : link) (o : sop) (ss : list stream) : link * sout :=
  let (t, x) := sstep m (ln_prio ln) (ln_serve ln) o in
  match x with
  | SStarted _ _ cs | SCompleted _ cs => (with_serve ln t (cancel_all cs ss) (ln_over ln), x)
  | SReturned r cs => (with_serve ln t (cancel_all cs ss) (Some r), x)
  | SPanicked cs => (with_serve ln t (cancel_all cs ss) (Some (Some Cancel)), x)   (* the task is gone *)
  | SWaits | SBad => (with_serve ln t ss (ln_over ln), x)
  end.
Definition is_over (ln : link) : bool := match ln_over ln with Some _ => true | None => false end.

(** When the loop is left its consumer is dropped. *)
Definition finish_turn (m : mode) (l : nat) (ln : link) (x : sout) (did : list (nat * (top * tout))) (s : net)
  : net * nout :=
  let s := with_links s (set_nth l ln (nt_links s)) in
  if is_over ln then
    let (s, y) := at_track m (ln_src ln) (TCDrop (ln_cons ln)) s in
    (s, NOut (did ++ [(ln_src ln, (TCDrop (ln_cons ln), y))]) (NTurn x))
  else (s, NOut did (NTurn x)).

Fixpoint prefixb (p l : bytes) : bool :=
  match p, l with
  | [], _ => true
  | a :: p, b :: l => Byte.eqb a b && prefixb p l
  | _ :: _, [] => false
  end.
Definition bytes_of (r : reader) : bytes := rd_buf r ++ concat (rc_chunks (rd_stream r)).

(** A stream that was cancelled may here still be given bytes written later: more executions than there are.

    What the transport may have delivered when [s] has been written and serving stands at [sv]: a prefix,
    and a clean end only if the sender finished and everything is there.  Pieces are not empty. *)
Definition possible (sv : served) (s : send) (r : reader) : bool :=
  prefixb (bytes_of r) (sd_sent s) &&
  forallb (fun c => match c with [] => false | _ => true end) (rc_chunks (rd_stream r)) &&
  match rc_end (rd_stream r) with
  | Fin => match sv with SFinished => prefixb (sd_sent s) (bytes_of r) | _ => false end
  | _ => true
  end.

Definition bad (s : net) : net * nout := (s, NOut [] NBad).

Definition update (l : nat) (ln : link) (k : nat) (st : stream) (s : net) : net :=
  with_links s (set_nth l (with_streams ln (set_nth k st (ln_streams ln))) (nt_links s)).

Definition nstep (m : mode) (w : N) (s : net) (o : nop) : net * nout :=
  match o with
  | NGroup =>
      (with_groups s (set_nth 0 (nth 0 (nt_groups s) [] ++ [RGroup [] None]) (nt_groups s)), NOut [] NNone)
  | NFill j o =>
      match nth_error (nth 0 (nt_groups s) []) j with
      | Some g => match fill w o g with
                  | Some g => (with_groups s (set_nth 0 (set_nth j g (nth 0 (nt_groups s) [])) (nt_groups s)), NOut [] NNone)
                  | None => bad s
                  end
      | None => bad s
      end
  | NUse i o =>
      if Nat.ltb i (length (nt_tracks s)) && may_use s i o then let (s, x) := at_track m i o s in (s, NOut [(i, (o, x))] NNone)
      else bad s
  | NOpen i p id prio =>                              (* publisher.rs:138-139, subscriber.rs:140-155 *)
      if Nat.eqb i 0 || Nat.eqb p 2 then
        match nth_error (nt_tracks s) i with
        | None => bad s
        | Some t =>
            match tstep m t (TConsume p) with
            | (t', TUnit) =>
                let n := length (nt_tracks s) in
                let '(t1, x1) := tstep m tsys_new (TClone 0) in
                let '(t2, x2) := tstep m t1 (TClone 0) in
                (Net (set_nth i t' (nt_tracks s) ++ [t2]) (nt_groups s ++ [[]])
                     (nt_links s ++ [Link i (length (ts_cons t)) id prio tserve_new [] None LRunning]),
                 NOut [(i, (TConsume p, TUnit)); (n, (TClone 0, x1)); (n, (TClone 0, x2))] NNone)
            | _ => bad s
            end
        end
      else bad s
  | NPoll l =>
      match nth_error (nt_links s) l with
      | None => bad s
      | Some ln =>
          if is_over ln then bad s else
          let (s, x) := at_track m (ln_src ln) (TNext (ln_cons ln)) s in
          let did := [(ln_src ln, (TNext (ln_cons ln), x))] in
          match x with
          | TGot (AOk (Some g)) =>
              let (ln, y) := turn m ln (SGroup (g_seq g)) (ln_streams ln ++ [strm_new g]) in
              finish_turn m l ln y did s
          | TGot (AOk None) => let (ln, y) := turn m ln SNoMore (ln_streams ln) in finish_turn m l ln y did s
          | TGot (AErr e) => let (ln, y) := turn m ln (SError e) (ln_streams ln) in finish_turn m l ln y did s
          | _ => (s, NOut did NNone)
          end
      end
  | NDone l newer lost =>
      match nth_error (nt_links s) l with
      | None => bad s
      | Some ln =>
          if is_over ln then bad s else
          match (if newer then tv_new (ln_serve ln) else tv_old (ln_serve ln)) with
          | None => bad s
          | Some k =>
              match nth_error (ln_streams ln) k with
              | None => bad s
              | Some st =>
                  (* unless it failed, the group was served to its end (publisher.rs:253) *)
                  match lost, nth_error (nth (ln_src ln) (nt_groups s) []) (st_src st) with
                  | false, Some (RGroup _ None) | false, None => bad s
                  | _, _ =>
                      let ss := if lost then at_stream lose k (ln_streams ln) else ln_streams ln in
                      let (ln, y) := turn m ln (if newer then SNewDone else SOldDone) ss in
                      finish_turn m l ln y [] s
                  end
              end
          end
      end
  | NStop l =>
      match nth_error (nt_links s) l with
      | None => bad s
      | Some ln =>
          if is_over ln then bad s else
          let (ln, y) := turn m ln SStop (ln_streams ln) in finish_turn m l ln y [] s
      end
  | NArrive l k live canc sched r =>
      match nth_error (nt_links s) l with
      | None => bad s
      | Some ln =>
          match nth_error (ln_streams ln) k with
          | None => bad s
          | Some st =>
              match nth_error (nth (ln_src ln) (nt_groups s) []) (st_src st) with
              | None => bad s
              | Some g =>
                  let (sv, sd) := serve_group (GroupHeader (ln_id ln) (st_seq st)) (view_of live g) (Send [] sched) in
                  if possible sv sd r && prefixb (st_seen st) (bytes_of r) && negb (st_over st) then
                    let over := canc || match rc_end (rd_stream r) with Open => false | _ => true end in
                    let st' at_ := Strm (st_seq st) (st_src st) (st_cancelled st) (st_lost st) (bytes_of r) over at_ in
                    let given s st a did := (update l ln k st s, NOut did (NGiven a)) in
                    match recv_stream w canc r with
                    | NoGroup _ => given s (st' (st_at st)) AWaits []
                    | Arrived h _ g' =>
                        match st_at st with
                        | Some None => given s (st' (Some None)) AWaits []
                        | Some (Some j) =>
                            let gs := nth (S l) (nt_groups s) [] in
                            given (with_groups s (set_nth (S l) (set_nth j g' gs) (nt_groups s))) (st' (Some (Some j))) (AMore j) []
                        | None =>                                            (* subscriber.rs:215-223 *)
                            match ln_phase ln with
                            | LRemoved => given s (st' (Some None)) (ARefused Cancel) []
                            | _ =>
                                let gs := nth (S l) (nt_groups s) [] in
                                let new := Group (gh_sequence h) (length gs) in
                                let (s1, x) := at_track m (S l) (TInsert 1 new) s in
                                let did := [(S l, (TInsert 1 new, x))] in
                                match x with
                                | TInserted true =>
                                    given (with_groups s1 (set_nth (S l) (gs ++ [g']) (nt_groups s1)))
                                          (st' (Some (Some (length gs)))) (ANew new) did
                                | TInserted false => given s1 (st' (Some None)) (ARefused Old) did
                                | _ => given s1 (st' (Some None)) APanics did
                                end
                            end
                        end
                    end
                  else bad s
              end
          end
      end
  | NEnd l clean =>                                          (* subscriber.rs:166-184, 187-208; peers that run this code fail a request by a reset: 172-174 *)
      match nth_error (nt_links s) l with
      | None => bad s
      | Some ln =>
          match ln_phase ln, clean, ln_over ln with
          | LRunning, true, Some None | LRunning, false, _ =>
              let o := if clean then TFinish 0 else TAbort 0 Cancel in
              let (s, x) := at_track m (S l) o s in
              (with_links s (set_nth l (with_phase ln LEnded) (nt_links s)), NOut [(S l, (o, x))] NNone)
          | _, _, _ => bad s
          end
      end
  | NRemove l =>                                                                 (* subscriber.rs:146 *)
      match nth_error (nt_links s) l with
      | None => bad s
      | Some ln =>
          match ln_phase ln with
          | LEnded =>
              let (s, x) := at_track m (S l) (TDrop 1) s in
              (with_links s (set_nth l (with_phase ln LRemoved) (nt_links s)), NOut [(S l, (TDrop 1, x))] NNone)
          | _ => bad s
          end
      end
  end.

Fixpoint nrun (m : mode) (w : N) (s : net) (ops : list nop) : net * list (nop * nout) :=
  match ops with
  | [] => (s, [])
  | o :: ops => let (s1, x) := nstep m w s o in let (s2, tr) := nrun m w s1 ops in (s2, (o, x) :: tr)
  end.
