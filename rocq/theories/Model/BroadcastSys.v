(** A broadcast: its lookup table, request queue, background cleanup tasks and all handles
    (rs/moq/src/model/broadcast.rs).  Tracks are numbered; of a track only its name, whether and how it
    ended, and whether somebody outside the request queue holds its producer matter here. *)
From Coq Require Import NArith ZArith List Bool.
From Coq Require Import Init.Byte Strings.Byte.
From Verif.Model Require Import Base ErrorCode Stream Frame FrameSys Map.
Import ListNotations.

(** [tk_end]: what [TrackConsumer::closed] returns once it does (track.rs:180-185); all producers being
    dropped counts as [Failed Cancel].  [tk_held]: the producer is in user hands, not in the queue. *)
Record track := Track { tk_name : bytes; tk_end : option outcome; tk_held : bool }.

(** Progress of the last producer's [drop] (broadcast.rs:125-143): still to close the channel, to drain
    it, to clear the table. *)
Inductive phase := PClose | PDrain | PClear.

(** broadcast.rs:19-27 [BroadcastProducer], 172-177 [BroadcastConsumer]; [bs_cloned] is the shared
    counter (an AtomicUsize; every unit above zero is a live handle, so it cannot wrap before memory
    is exhausted); [bs_tasks] are the spawned cleanup tasks, by track. *)
Record bsys := BSys {
  bs_tracks : list track; bs_published : map_of nat; bs_queue : list nat; bs_chan_closed : bool;
  bs_cloned : Z; bs_prods : table unit; bs_drop : option phase; bs_flag : bool; bs_guards : nat;
  bs_cons : table unit; bs_tasks : table nat }.

(** broadcast.rs:36-43 [new] *)
Definition bsys_new : bsys := BSys [] [] [] false 0 [Some tt] None false 0 [] [].

Definition bwith_tracks s x := BSys x (bs_published s) (bs_queue s) (bs_chan_closed s) (bs_cloned s) (bs_prods s) (bs_drop s) (bs_flag s) (bs_guards s) (bs_cons s) (bs_tasks s).
Definition bwith_published s x := BSys (bs_tracks s) x (bs_queue s) (bs_chan_closed s) (bs_cloned s) (bs_prods s) (bs_drop s) (bs_flag s) (bs_guards s) (bs_cons s) (bs_tasks s).
Definition bwith_queue s x := BSys (bs_tracks s) (bs_published s) x (bs_chan_closed s) (bs_cloned s) (bs_prods s) (bs_drop s) (bs_flag s) (bs_guards s) (bs_cons s) (bs_tasks s).
Definition bwith_chan s x := BSys (bs_tracks s) (bs_published s) (bs_queue s) x (bs_cloned s) (bs_prods s) (bs_drop s) (bs_flag s) (bs_guards s) (bs_cons s) (bs_tasks s).
Definition bwith_cloned s x := BSys (bs_tracks s) (bs_published s) (bs_queue s) (bs_chan_closed s) x (bs_prods s) (bs_drop s) (bs_flag s) (bs_guards s) (bs_cons s) (bs_tasks s).
Definition bwith_prods s x := BSys (bs_tracks s) (bs_published s) (bs_queue s) (bs_chan_closed s) (bs_cloned s) x (bs_drop s) (bs_flag s) (bs_guards s) (bs_cons s) (bs_tasks s).
Definition bwith_drop s x := BSys (bs_tracks s) (bs_published s) (bs_queue s) (bs_chan_closed s) (bs_cloned s) (bs_prods s) x (bs_flag s) (bs_guards s) (bs_cons s) (bs_tasks s).
Definition bwith_flag s x := BSys (bs_tracks s) (bs_published s) (bs_queue s) (bs_chan_closed s) (bs_cloned s) (bs_prods s) (bs_drop s) x (bs_guards s) (bs_cons s) (bs_tasks s).
Definition bwith_guards s x := BSys (bs_tracks s) (bs_published s) (bs_queue s) (bs_chan_closed s) (bs_cloned s) (bs_prods s) (bs_drop s) (bs_flag s) x (bs_cons s) (bs_tasks s).
Definition bwith_cons s x := BSys (bs_tracks s) (bs_published s) (bs_queue s) (bs_chan_closed s) (bs_cloned s) (bs_prods s) (bs_drop s) (bs_flag s) (bs_guards s) x (bs_tasks s).
Definition bwith_tasks s x := BSys (bs_tracks s) (bs_published s) (bs_queue s) (bs_chan_closed s) (bs_cloned s) (bs_prods s) (bs_drop s) (bs_flag s) (bs_guards s) (bs_cons s) x.

Inductive bop :=
| BSubscribe (c : nat) (name : bytes)     (* consumer.subscribe *)
| BRequest (p : nat)                      (* poll producer.request *)
| BCreate (p : nat) (name : bytes)        (* producer.create *)
| BNewTrack (name : bytes)                (* Track::produce, outside any broadcast *)
| BInsert (p : nat) (t : nat)             (* producer.insert of a consumer of track [t] *)
| BEnd (t : nat) (o : outcome)            (* the holder finishes, aborts or drops track [t] *)
| BCleanup (k : nat)                      (* cleanup task [k] gets to run *)
| BFinish (p : nat)
| BClone (p : nat)
| BDrop (p : nat)                         (* first step of drop: the counter *)
| BDropStep                               (* next step of the last producer's drop *)
| BConsume (p : nat)
| BUnused (p : nat)
| BUnusedDrop
| BCClone (c : nat)
| BCDrop (c : nat)
| BClosed (c : nat)                       (* poll consumer.closed *)
| BTrackClosed (t : nat).                 (* poll closed on a consumer of track [t] *)

(** [BTrack t fresh]: a consumer of track [t]; [fresh]: created by this call.  [BShutdown]: the drop
    goes on to shut the broadcast down. *)
Inductive bout :=
| BUnit | BBad | BTrack (t : nat) (fresh : bool) | BUnique (b : bool) | BRequested (r : await (option nat))
| BShutdown | BIsClosed (b : bool) | BRan (removed : bool) | BEnded (o : option outcome).

(** broadcast.rs:59-68 [insert] *)
Definition broadcast_insert (t : nat) (name : bytes) (s : bsys) : bsys * bool :=
  let unique := match lookup name (bs_published s) with None => true | Some _ => false end in
  (bwith_tasks (bwith_published s (put name t (bs_published s))) (bs_tasks s ++ [Some t]), unique).

Definition end_track (o : outcome) (t : nat) (l : list track) : list track :=
  match nth_error l t with
  | Some (Track n None h) => set_nth t (Track n (Some o) h) l
  | _ => l
  end.
Definition hold_track (t : nat) (l : list track) : list track :=
  match nth_error l t with
  | Some (Track n e _) => set_nth t (Track n e true) l
  | _ => l
  end.

Definition bstep (s : bsys) (o : bop) : bsys * bout :=
  match o with
  | BSubscribe c name =>                                                     (* broadcast.rs:180-214 *)
      match get (bs_cons s) c with
      | None => (s, BBad)
      | Some _ =>
        match lookup name (bs_published s) with
        | Some t => (s, BTrack t false)                                      (* 199-201 *)
        | None =>
          let t := length (bs_tracks s) in
          let s' := bwith_published s (put name t (bs_published s)) in       (* 204-206 *)
          if bs_chan_closed s
          then (bwith_tracks s' (bs_tracks s ++ [Track name (Some (Failed Cancel)) false]), BTrack t true)   (* 212 *)
          else (bwith_queue (bwith_tracks s' (bs_tracks s ++ [Track name None false])) (bs_queue s ++ [t]), BTrack t true)
        end
      end
  | BRequest p =>                                                            (* 45-49 *)
      match get (bs_prods s) p with
      | None => (s, BBad)
      | Some _ =>
        match bs_queue s with
        | t :: q => (bwith_tasks (bwith_tracks (bwith_queue s q) (hold_track t (bs_tracks s))) (bs_tasks s ++ [Some t]),
                     BRequested (AOk (Some t)))
        | [] => (s, BRequested (if bs_chan_closed s then AOk None else APending))
        end
      end
  | BCreate p name =>                                                        (* 51-55 *)
      match get (bs_prods s) p with
      | None => (s, BBad)
      | Some _ =>
        let t := length (bs_tracks s) in
        (fst (broadcast_insert t name (bwith_tracks s (bs_tracks s ++ [Track name None true]))), BTrack t true)
      end
  | BNewTrack name => (bwith_tracks s (bs_tracks s ++ [Track name None true]), BTrack (length (bs_tracks s)) true)
  | BInsert p t =>
      match get (bs_prods s) p, nth_error (bs_tracks s) t with
      | Some _, Some tk => let (s, u) := broadcast_insert t (tk_name tk) s in (s, BUnique u)
      | _, _ => (s, BBad)
      end
  | BEnd t o =>
      match nth_error (bs_tracks s) t with
      | Some (Track _ None true) => (bwith_tracks s (end_track o t (bs_tracks s)), BUnit)
      | _ => (s, BBad)
      end
  | BCleanup k =>                                                            (* 71-84 *)
      match get (bs_tasks s) k with
      | None => (s, BBad)
      | Some t =>
        match nth_error (bs_tracks s) t with
        | Some (Track name (Some _) _) =>
            let s := bwith_tasks s (set_nth k None (bs_tasks s)) in
            match lookup name (bs_published s) with
            | Some t' => if Nat.eqb t t' then (bwith_published s (remove name (bs_published s)), BRan true)
                         else (bwith_published s (put name t' (remove name (bs_published s))), BRan false)
            | None => (s, BRan false)
            end
        | _ => (s, BBad)                                                     (* still waiting *)
        end
      end
  | BFinish p =>                                                             (* 95-97 *)
      match get (bs_prods s) p with None => (s, BBad) | Some _ => (bwith_flag s true, BUnit) end
  | BClone p =>                                                              (* 112-122 *)
      match get (bs_prods s) p with
      | None => (s, BBad)
      | Some _ => (bwith_prods (bwith_cloned s (bs_cloned s + 1)%Z) (bs_prods s ++ [Some tt]), BUnit)
      end
  | BDrop p =>                                                               (* 126-128 *)
      match get (bs_prods s) p with
      | None => (s, BBad)
      | Some _ =>
        let old := bs_cloned s in
        let s := bwith_prods (bwith_cloned s (old - 1)%Z) (set_nth p None (bs_prods s)) in
        if (0 <? old)%Z then (s, BUnit) else (bwith_drop s (Some PClose), BShutdown)
      end
  | BDropStep =>
      match bs_drop s with
      | None => (s, BBad)
      | Some PClose => (bwith_drop (bwith_chan s true) (Some PDrain), BUnit)             (* 133 *)
      | Some PDrain =>                                                                   (* 136-138 *)
          match bs_queue s with
          | t :: q => (bwith_tracks (bwith_queue s q) (end_track (Failed Cancel) t (bs_tracks s)), BUnit)
          | [] => (bwith_drop s (Some PClear), BUnit)
          end
      | Some PClear => (bwith_drop (bwith_published s []) None, BUnit)                   (* 141 *)
      end
  | BConsume p =>                                                            (* 87-93 *)
      match get (bs_prods s) p with None => (s, BBad) | Some _ => (bwith_cons s (bs_cons s ++ [Some tt]), BUnit) end
  | BUnused p =>                                                             (* 102-105 *)
      match get (bs_prods s) p with None => (s, BBad) | Some _ => (bwith_guards s (S (bs_guards s)), BUnit) end
  | BUnusedDrop => match bs_guards s with O => (s, BBad) | S n => (bwith_guards s n, BUnit) end
  | BCClone c =>
      match get (bs_cons s) c with None => (s, BBad) | Some _ => (bwith_cons s (bs_cons s ++ [Some tt]), BUnit) end
  | BCDrop c =>
      match get (bs_cons s) c with None => (s, BBad) | Some _ => (bwith_cons s (set_nth c None (bs_cons s)), BUnit) end
  | BClosed c =>                                                             (* 217-223 *)
      match get (bs_cons s) c with
      | None => (s, BBad)
      | Some _ => (s, BIsClosed (bs_flag s || negb (live (bs_prods s) || negb (Nat.eqb (bs_guards s) 0) ||
                                  match bs_drop s with Some _ => true | None => false end)))
      end
  | BTrackClosed t =>
      match nth_error (bs_tracks s) t with None => (s, BBad) | Some tk => (s, BEnded (tk_end tk)) end
  end.

Fixpoint brun (s : bsys) (ops : list bop) : bsys * list (bop * bout) :=
  match ops with
  | [] => (s, [])
  | o :: ops => let (s1, x) := bstep s o in let (s2, tr) := brun s1 ops in (s2, (o, x) :: tr)
  end.
