(** js/moq/src/{track,group}.ts, js/moq/src/util/watch.ts: a track of the JavaScript library, its writer and its readers.

    JavaScript runs one piece of code at a time; what is awaited goes on in a later piece.  A promise is modelled by what it waits
    for; that it settles ([JTickG], [JTickF]) and that the call awaiting it goes on ([JTickC]) are operations of their own, which may
    come at any later time (in a browser they come before the next event is handled).  Which of two settled promises wins a
    [Promise.race] is an argument.
    Simplified: a reader has at most one call of [nextGroup] or [nextFrame] at a time; group numbers are exact (below 2^53); a
    group that was refused by [insertGroup] is not followed further; [clone] of a reader is [consume] (track.ts:244-246 and
    watch.ts:203-205 make the new reader from the track, whatever the state of the old one); counting of consumers is
    JsHold.v. *)
From Coq Require Import NArith List Bool.
From Coq Require Import Init.Byte.
From Verif.Model Require Import Base.
Import ListNotations.
Open Scope N_scope.

(** How a writer ended: [close] or [abort]. *)
Inductive jend := JClosed | JAborted.

(** group.ts:8-59 GroupProducer: its number, the frames, and whether it has ended. *)
Record jgroup := JGroup { jg_id : N; jg_frames : list bytes; jg_end : option jend }.

(** The promise [#nextGroup] of a reader, track.ts:128, 143: [GWait k]: it awaits the update number [k+1] of the track (watch.ts:165,
    the [Deferred] current at epoch [k]); [GGot]: fulfilled; [GFail]: rejected. *)
Inductive gprom := GWait (k : nat) | GGot (g : option N) | GFail.
(** The promise [#nextFrame], track.ts:129; [FOff]: undefined. *)
Inductive fprom := FOff | FWait | FGot (f : option bytes) | FFail.
(** The call in progress: [CGroup]: [nextGroup] (track.ts:151); [nextFrame] in the [Promise.race] (219), in 225, in 233. *)
Inductive jcall := CNone | CGroup | CRace | CGroupWait | CFrameWait.

(** track.ts:114-268 TrackConsumer, with its WatchConsumer (watch.ts:122-218).  [jr_cur]: [#currentGroup], its number and its [#index]. *)
Record jreader := JReader {
  jr_epoch : nat;                (* watch.ts:126 *)
  jr_left : bool;                (* close() was called *)
  jr_group : gprom;
  jr_cur : option (N * nat);
  jr_count : nat;                (* track.ts:126 [#currentFrame] *)
  jr_frame : fprom;
  jr_call : jcall }.

(** [jt_vals]: all values of the watch, the first one first; the epoch is the number of updates (watch.ts:68). *)
Record jtrack := JTrack {
  jt_next : N;                   (* track.ts:16 [#next ?? 0] *)
  jt_vals : list (option N);
  jt_end : option jend;
  jt_groups : list jgroup;
  jt_readers : list jreader }.
Definition jt_epoch (t : jtrack) : nat := pred (length (jt_vals t)).
Definition jt_init : jtrack := JTrack 0 [None] None [] [].

Inductive jop :=
| JAppend                        (* TrackProducer.appendGroup *)
| JInsert (id : N)               (* TrackProducer.insertGroup *)
| JEnd (e : jend)                (* TrackProducer.close, abort *)
| JWrite (id : N) (f : bytes)    (* GroupProducer.writeFrame *)
| JEndGroup (id : N) (e : jend)  (* GroupProducer.close, abort *)
| JConsume                       (* TrackProducer.consume, TrackConsumer.clone *)
| JNextGroup (r : nat)
| JNextFrame (r : nat)
| JTickG (r : nat)
| JTickF (r : nat)
| JTickC (r : nat) (group : bool)   (* [group]: the group wins the race if both have settled *)
| JLeave (r : nat) (group : bool).  (* TrackConsumer.close *)

(** [JIdle]: there was nothing to do (or nobody to do it). *)
Inductive jres :=
| JIdle | JDone | JThrown
| JNew (id : N) | JRefused
| JReaderIs (r : nat)
| JGroupIs (id : N) | JFrameIs (id : N) (index : nat) (data : bytes) | JOver | JFailed.

Fixpoint jset {A} (l : list A) (n : nat) (a : A) : list A :=
  match l, n with
  | [], _ => []
  | _ :: l, O => a :: l
  | b :: l, S n => b :: jset l n a
  end.

Definition jfind (t : jtrack) (id : N) : option jgroup := find (fun g => jg_id g =? id) (jt_groups t).

(** watch.ts:151-164, until it has to wait; [fn] is [!!group] (track.ts:143). *)
Definition start_next (t : jtrack) (epoch : nat) : nat * gprom :=
  if Nat.leb epoch (jt_epoch t) then                                          (* 156 *)
    (S (jt_epoch t),                                                          (* 157 *)
     match last (jt_vals t) None with
     | Some g => GGot (Some g)                                                (* 159-162 *)
     | None => GWait (jt_epoch t)
     end)
  else (epoch, GWait (jt_epoch t)).

(** watch.ts:165-176 with 51-53, once the promise awaited has settled.  An update comes before the end: [update] throws afterwards
    (56-58). *)
Definition tick_next (t : jtrack) (k : nat) : option (nat * gprom) :=
  if Nat.ltb k (jt_epoch t) then
    Some (S (jt_epoch t),                                                     (* 167 *)
          match nth (S k) (jt_vals t) None with
          | Some g => GGot (Some g)                                           (* 173-175 *)
          | None => GWait (jt_epoch t)
          end)
  else
    match jt_end t with
    | None => None
    | Some JClosed => Some (S (jt_epoch t), GGot None)                        (* 169-171 *)
    | Some JAborted => Some (S (jt_epoch t), GFail)
    end.

(** group.ts:89-92 on top of watch.ts:181-201: the frame at [#index] once there is one, else the end.  Nothing else moves
    [#index] between the call and its result. *)
Definition peek_frame (t : jtrack) (cur : option (N * nat)) : fprom * option (N * nat) :=
  match cur with
  | None => (FOff, None)
  | Some (id, i) =>
    match jfind t id with
    | None => (FWait, cur)
    | Some g =>
      match nth_error (jg_frames g) i with
      | Some f => (FGot (Some f), Some (id, S i))
      | None =>
        match jg_end g with
        | None => (FWait, cur)
        | Some JClosed => (FGot None, cur)
        | Some JAborted => (FFail, cur)
        end
      end
    end
  end.

(** A new reader, track.ts:137-144. *)
Definition new_reader (t : jtrack) : jreader :=
  let (e, g) := start_next t 0 in JReader e false g None 0 FOff CNone.

(** track.ts:150-163, from 151 on: the result, [#nextGroup] anew, [#currentGroup] a clone, [#nextFrame] anew. *)
Definition finish_group (t : jtrack) (r : jreader) (o : option N) : jreader * jres :=
  let (e, g) := start_next t (jr_epoch r) in                                  (* 154 *)
  let (f, cur) := peek_frame t (match o with Some id => Some (id, O) | None => None end) in
  (JReader e (jr_left r) g cur 0 f CNone, match o with Some id => JGroupIs id | None => JOver end).

(** track.ts:175-184 *)
Definition finish_frame (t : jtrack) (r : jreader) (d : bytes) : jreader * jres :=
  match jr_cur r with
  | None => (JReader (jr_epoch r) (jr_left r) (jr_group r) None (jr_count r) (jr_frame r) CNone, JFailed)  (* 177 *)
  | Some (id, _) =>
    let (f, cur) := peek_frame t (jr_cur r) in                                (* 181 *)
    (JReader (jr_epoch r) (jr_left r) (jr_group r) cur (S (jr_count r)) f CNone, JFrameIs id (jr_count r) d)
  end.

(** track.ts:187-202, and on to the next turn of the loop. *)
Definition take_group (t : jtrack) (r : jreader) (id : N) : jreader :=
  let (e, g) := start_next t (jr_epoch r) in                                  (* 187 *)
  if match jr_cur r with Some (c, _) => id <=? c | None => false end then     (* 189-193 *)
    JReader e (jr_left r) g (jr_cur r) (jr_count r) (jr_frame r) CRace
  else
    let (f, cur) := peek_frame t (Some (id, O)) in                            (* 196-201 *)
    JReader e (jr_left r) g cur 0 f CRace.

Definition set_call (r : jreader) (c : jcall) : jreader :=
  JReader (jr_epoch r) (jr_left r) (jr_group r) (jr_cur r) (jr_count r) (jr_frame r) c.

(** track.ts:219-229, the race: the frame's side. *)
Definition race_frame (t : jtrack) (r : jreader) : option (jreader * jres) :=
  match jr_frame r with
  | FGot (Some d) => Some (finish_frame t r d)                                (* 221-223 *)
  | FOff | FGot None | FFail => Some (set_call r CGroupWait, JDone)           (* 207-213, 225 *)
  | FWait => None
  end.
(** The group's side: a rejection is not caught (215, 219). *)
Definition race_group (t : jtrack) (r : jreader) : option (jreader * jres) :=
  match jr_group r with
  | GGot (Some id) => Some (take_group t r id, JDone)                         (* 229-231 *)
  | GGot None => Some (set_call r CFrameWait, JDone)                          (* 233 *)
  | GFail => Some (set_call r CNone, JFailed)
  | GWait _ => None
  end.

(** The call in progress goes on. *)
Definition tick_call (t : jtrack) (r : jreader) (group : bool) : option (jreader * jres) :=
  match jr_call r with
  | CNone => None
  | CGroup =>                                                                 (* 151 *)
    match jr_group r with
    | GGot o => Some (finish_group t r o)
    | GFail => Some (set_call r CNone, JFailed)
    | GWait _ => None
    end
  | CRace =>
    match jr_frame r with
    | FOff => race_frame t r                       (* no promise: it is there at once *)
    | _ =>
      match race_frame t r, race_group t r with
      | Some a, Some b => Some (if group then b else a)
      | Some a, None => Some a
      | None, b => b
      end
    end
  | CGroupWait =>                                                             (* 225-226 *)
    match jr_group r with
    | GGot (Some id) => Some (take_group t r id, JDone)
    | GGot None => Some (set_call r CNone, JOver)
    | GFail => Some (set_call r CNone, JFailed)
    | GWait _ => None
    end
  | CFrameWait =>                                                             (* 233-234 *)
    match jr_frame r with
    | FGot (Some d) => Some (finish_frame t r d)
    | FOff | FGot None | FFail => Some (set_call r CNone, JOver)
    | FWait => None
    end
  end.

(** track.ts:251-260 [close]; the call in progress has its result at once (simplified: in the browser it has it in the same turn):
    [nextGroup] gives the group if it was there; [nextFrame] gives the end, or throws (177) if a frame was there and wins. *)
Definition leave (r : jreader) (group : bool) : jreader * jres :=
  (JReader (jr_epoch r) true (GGot None) None 0 FOff CNone,
   match jr_call r, jr_group r, jr_frame r with
   | CNone, _, _ => JDone
   | CGroup, GGot (Some id), _ => JGroupIs id
   | CGroup, GFail, _ => JFailed
   | (CRace | CFrameWait), GGot (Some _), FGot (Some _) => if group then JOver else JFailed
   | (CRace | CFrameWait), _, FGot (Some _) => JFailed
   | _, _, _ => JOver
   end).

Definition set_reader (t : jtrack) (n : nat) (r : jreader) : jtrack :=
  JTrack (jt_next t) (jt_vals t) (jt_end t) (jt_groups t) (jset (jt_readers t) n r).

Definition set_group (t : jtrack) (g : jgroup) : jtrack :=
  JTrack (jt_next t) (jt_vals t) (jt_end t)
         (map (fun h => if jg_id h =? jg_id g then g else h) (jt_groups t)) (jt_readers t).

(** track.ts:39-43, 57-61: the group becomes the current value; [#next] is set first, [update] throws if the track has ended. *)
Definition add_group (t : jtrack) (id : N) : jtrack * jres :=
  match jt_end t with
  | Some _ => (JTrack (id + 1) (jt_vals t) (jt_end t) (jt_groups t) (jt_readers t), JThrown)
  | None => (JTrack (id + 1) (jt_vals t ++ [Some id]) None (jt_groups t ++ [JGroup id [] None]) (jt_readers t), JNew id)
  end.

Definition jstep (t : jtrack) (o : jop) : jtrack * jres :=
  match o with
  | JAppend => add_group t (jt_next t)                                        (* track.ts:35-46 *)
  | JInsert id => if id <? jt_next t then (t, JRefused) else add_group t id   (* 51-62 *)
  | JEnd e =>                                                                 (* 67-76, 98-106 *)
    match jt_end t with
    | Some _ => (t, JDone)
    | None => (JTrack (jt_next t) (jt_vals t ++ [None]) (Some e) (jt_groups t) (jt_readers t), JDone)
    end
  | JWrite id f =>                                                            (* group.ts:29-31, watch.ts:56-58 *)
    match jfind t id with
    | None => (t, JIdle)
    | Some g =>
      match jg_end g with
      | Some _ => (t, JThrown)
      | None => (set_group t (JGroup id (jg_frames g ++ [f]) None), JDone)
      end
    end
  | JEndGroup id e =>                                                         (* group.ts:36-38, 52-54; the first one counts *)
    match jfind t id with
    | None => (t, JIdle)
    | Some g =>
      match jg_end g with
      | Some _ => (t, JDone)
      | None => (set_group t (JGroup id (jg_frames g) (Some e)), JDone)
      end
    end
  | JConsume =>
    (JTrack (jt_next t) (jt_vals t) (jt_end t) (jt_groups t) (jt_readers t ++ [new_reader t]), JReaderIs (length (jt_readers t)))
  | JNextGroup n | JNextFrame n =>
    match nth_error (jt_readers t) n with
    | None => (t, JIdle)
    | Some r =>
      match jr_call r with
      | CNone =>
        if jr_left r then (t, JOver)        (* 150-163: nothing to await, [next] gives undefined (watch.ts:152); 206-226 *)
        else (set_reader t n (set_call r (match o with JNextGroup _ => CGroup | _ => CRace end)), JDone)
      | _ => (t, JIdle)
      end
    end
  | JTickG n =>
    match nth_error (jt_readers t) n with
    | None => (t, JIdle)
    | Some r =>
      match jr_group r with
      | GWait k =>
        match tick_next t k with
        | None => (t, JIdle)
        | Some (e, g) =>
          (set_reader t n (JReader e (jr_left r) g (jr_cur r) (jr_count r) (jr_frame r) (jr_call r)), JDone)
        end
      | _ => (t, JIdle)
      end
    end
  | JTickF n =>
    match nth_error (jt_readers t) n with
    | None => (t, JIdle)
    | Some r =>
      match jr_frame r with
      | FWait =>
        match peek_frame t (jr_cur r) with
        | (FWait, _) => (t, JIdle)
        | (f, cur) => (set_reader t n (JReader (jr_epoch r) (jr_left r) (jr_group r) cur (jr_count r) f (jr_call r)), JDone)
        end
      | _ => (t, JIdle)
      end
    end
  | JTickC n b =>
    match nth_error (jt_readers t) n with
    | None => (t, JIdle)
    | Some r =>
      match tick_call t r b with
      | None => (t, JIdle)
      | Some (r, out) => (set_reader t n r, out)
      end
    end
  | JLeave n b =>
    match nth_error (jt_readers t) n with
    | None => (t, JIdle)
    | Some r => let (r, out) := leave r b in (set_reader t n r, out)
    end
  end.

Fixpoint jrun (t : jtrack) (ops : list jop) : jtrack * list (jop * jres) :=
  match ops with
  | [] => (t, [])
  | o :: ops => let (t, out) := jstep t o in let (t, tr) := jrun t ops in (t, (o, out) :: tr)
  end.
