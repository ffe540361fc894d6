(** One track and all its handles (rs/moq/src/model/track.rs).  A group is its sequence number and
    an identity (which [GroupConsumer] it is). *)
From Coq Require Import NArith List Bool.
From Verif.Model Require Import Base ErrorCode Stream Frame FrameSys.
Import ListNotations.
Open Scope N_scope.

Record group := Group { g_seq : N; g_id : nat }.

(** A producer is idle, or between the two critical sections of [append_group]. *)
Inductive tprod := Idle | Appending (seq : N).

(** track.rs:43-47 [TrackState]; [ts_cons]: the [prev] of each consumer (143-147). *)
Record tsys := TSys {
  ts_latest : option group; ts_closed : option outcome;
  ts_prods : table tprod; ts_guards : nat; ts_cons : table (option N) }.

(** track.rs:57-62 [TrackProducer::new] *)
Definition tsys_new : tsys := TSys None None [Some Idle] 0 [].
Definition tsys_alive (s : tsys) : bool := live (ts_prods s) || negb (Nat.eqb (ts_guards s) 0).

(** [Option<u64> >] *)
Definition opt_gt (a b : option N) : bool :=
  match a, b with
  | Some a, Some b => b <? a
  | Some _, None => true
  | None, _ => false
  end.

(** track.rs:65-80 [insert_group] *)
Definition track_insert (g : group) (latest : option group) (closed : option outcome) : res (bool * option group) :=
  match closed with
  | Some _ => Panic                                                          (* 66 *)
  | None =>
    match latest with
    | Some l => if g_seq l <? g_seq g then Val (true, Some g) else Val (false, latest)   (* 68-74 *)
    | None => Val (true, Some g)                                             (* 76-77 *)
    end
  end.

(** track.rs:93-98: the number [append_group] will use; u64 addition. *)
Definition append_seq (m : mode) (latest : option group) : res N :=
  match latest with
  | None => Val 0
  | Some l => let n := g_seq l + 1 in
              if n <? 2 ^ 64 then Val n else match m with Debug => Panic | Release => Val 0 end
  end.

(** track.rs:153-177 [next_group], one poll.  [wait_for] looks at the value first and fails only when
    the predicate is false and no sender is left. *)
Definition track_next (alive : bool) (latest : option group) (closed : option outcome) (prev : option N)
  : res (await (option group) * option N) :=
  if opt_gt (option_map g_seq latest) prev || match closed with Some _ => true | None => false end then
    match closed with
    | Some Finished => Val (AOk None, prev)                                  (* 167 *)
    | Some (Failed e) => Val (AErr e, prev)                                  (* 168 *)
    | None => match latest with
              | None => Panic                                                (* 173 unwrap *)
              | Some g => Val (AOk (Some g), Some (g_seq g))                 (* 173-176 *)
              end
    end
  else Val (if alive then APending else AErr Cancel, prev).                  (* 162-163 *)

(** track.rs:180-185 [closed], one poll. *)
Definition track_closed (alive : bool) (closed : option outcome) : await outcome :=
  match closed with
  | Some o => AOk o
  | None => if alive then APending else AErr Cancel
  end.

Inductive top :=
| TInsert (p : nat) (g : group)       (* insert_group; create_group with a new group *)
| TAppend1 (p : nat)                  (* append_group, first critical section *)
| TAppend2 (p : nat) (id : nat)       (* append_group, second critical section *)
| TFinish (p : nat)
| TAbort (p : nat) (e : error)
| TDrop (p : nat)
| TClone (p : nat)
| TUnused (p : nat)
| TUnusedDrop
| TConsume (p : nat)
| TNext (c : nat)                     (* poll next_group *)
| TClosed (c : nat)                   (* poll closed *)
| TCClone (c : nat)
| TCDrop (c : nat).

Inductive tout :=
| TUnit | TPanics | TBad | TInserted (b : bool) | TAppended (g : group)
| TGot (a : await (option group)) | TEnd (a : await outcome).

Definition twith_latest s x := TSys x (ts_closed s) (ts_prods s) (ts_guards s) (ts_cons s).
Definition twith_closed s x := TSys (ts_latest s) x (ts_prods s) (ts_guards s) (ts_cons s).
Definition twith_prods s x := TSys (ts_latest s) (ts_closed s) x (ts_guards s) (ts_cons s).
Definition twith_guards s x := TSys (ts_latest s) (ts_closed s) (ts_prods s) x (ts_cons s).
Definition twith_cons s x := TSys (ts_latest s) (ts_closed s) (ts_prods s) (ts_guards s) x.

Definition idle (s : tsys) (p : nat) : bool := match get (ts_prods s) p with Some Idle => true | _ => false end.

Definition tstep (m : mode) (s : tsys) (o : top) : tsys * tout :=
  match o with
  | TInsert p g =>
      if idle s p then
        match track_insert g (ts_latest s) (ts_closed s) with
        | Panic => (s, TPanics)
        | Val (b, l) => (twith_latest s l, TInserted b)
        end
      else (s, TBad)
  | TAppend1 p =>
      if idle s p then
        match append_seq m (ts_latest s) with
        | Panic => (s, TPanics)
        | Val n => (twith_prods s (set_nth p (Some (Appending n)) (ts_prods s)), TUnit)
        end
      else (s, TBad)
  | TAppend2 p id =>
      match get (ts_prods s) p with
      | Some (Appending n) =>
          let s := twith_prods s (set_nth p (Some Idle) (ts_prods s)) in
          match track_insert (Group n id) (ts_latest s) (ts_closed s) with
          | Panic => (s, TPanics)
          | Val (false, _) => (s, TPanics)                                   (* 101 unwrap *)
          | Val (true, l) => (twith_latest s l, TAppended (Group n id))
          end
      | _ => (s, TBad)
      end
  | TFinish p =>
      if idle s p then (twith_closed (twith_prods s (set_nth p None (ts_prods s))) (Some Finished), TUnit)
      else (s, TBad)
  | TAbort p e =>
      if idle s p then (twith_closed (twith_prods s (set_nth p None (ts_prods s))) (Some (Failed e)), TUnit)
      else (s, TBad)
  | TDrop p =>
      if idle s p then (twith_prods s (set_nth p None (ts_prods s)), TUnit) else (s, TBad)
  | TClone p =>
      if idle s p then (twith_prods s (ts_prods s ++ [Some Idle]), TUnit) else (s, TBad)
  | TUnused p =>
      if idle s p then (twith_guards s (S (ts_guards s)), TUnit) else (s, TBad)
  | TUnusedDrop =>
      match ts_guards s with O => (s, TBad) | S n => (twith_guards s n, TUnit) end
  | TConsume p =>
      if idle s p then (twith_cons s (ts_cons s ++ [Some None]), TUnit) else (s, TBad)
  | TNext c =>
      match get (ts_cons s) c with
      | None => (s, TBad)
      | Some prev =>
          match track_next (tsys_alive s) (ts_latest s) (ts_closed s) prev with
          | Panic => (s, TPanics)
          | Val (a, prev) => (twith_cons s (set_nth c (Some prev) (ts_cons s)), TGot a)
          end
      end
  | TClosed c =>
      match get (ts_cons s) c with
      | None => (s, TBad)
      | Some _ => (s, TEnd (track_closed (tsys_alive s) (ts_closed s)))
      end
  | TCClone c =>
      match get (ts_cons s) c with
      | None => (s, TBad)
      | Some prev => (twith_cons s (ts_cons s ++ [Some prev]), TUnit)
      end
  | TCDrop c =>
      match get (ts_cons s) c with
      | None => (s, TBad)
      | Some _ => (twith_cons s (set_nth c None (ts_cons s)), TUnit)
      end
  end.

Fixpoint trun (m : mode) (s : tsys) (ops : list top) : tsys * list (top * tout) :=
  match ops with
  | [] => (s, [])
  | o :: ops => let (s1, x) := tstep m s o in let (s2, tr) := trun m s1 ops in (s2, (o, x) :: tr)
  end.
