(** What the subscribing half of a session must look like from outside. *)
From Coq Require Import NArith List Bool.
From Coq Require Import Init.Byte Strings.Byte.
From Verif.Model Require Import Base ErrorCode Frame FrameSys TrackSys Map BroadcastSys TrackUse SubscriberSys.
Import ListNotations.
Open Scope nat_scope.

Definition sevent : Type := sop * sout.

(** The ids given out, in order. *)
Definition ids_of (e : sevent) : list N := match e with (SRequest _, SId _ id) => [id] | _ => [] end.
Definition ids (tr : list sevent) : list N := flat_map ids_of tr.
(** The broadcasts returned by consume for [path]. *)
Definition consumed_of (path : bytes) (e : sevent) : list nat :=
  match e with (SConsume p, SBroadcast b) => if str_eqb p path then [b] else [] | _ => [] end.
Definition consumed (path : bytes) (tr : list sevent) : list nat := flat_map (consumed_of path) tr.

(** The subscriptions in order: the broadcast whose track was requested, and the id. *)
Definition requests_of (e : sevent) : list (nat * N) := match e with (SRequest b, SId _ id) => [(b, id)] | _ => [] end.
Definition requests (tr : list sevent) : list (nat * N) := flat_map requests_of tr.

(** The state of one subscription as the peer and the reader can tell it. *)
Inductive standing := Unknown | Open (latest : option N) | Closing | Closed.
(** What happens to subscription [k], given that its id is [id]. *)
Definition progress (k : nat) (st : standing) (e : sevent) : standing :=
  match e with
  | (SStart j, SSubscribe _ _) => if Nat.eqb j k then Open None else st
  | (SEnd j _, SUnit) => if Nat.eqb j k then Closing else st
  | (SRemove j, SUnit) => if Nat.eqb j k then Closed else st
  | (SGroup _ seq _, SInserted j) => if Nat.eqb j k then match st with Open _ => Open (Some seq) | _ => st end else st
  | _ => st
  end.
Definition standing_of (k : nat) (tr : list sevent) : standing := fold_left (progress k) tr Unknown.

(** What an incoming group with sequence [seq] must meet when its subscription stands at [st]. *)
Definition reception (k : nat) (seq : N) (st : standing) : sout :=
  match st with
  | Unknown | Closed => SRefused Cancel
  | Open None => SInserted k
  | Open (Some l) => if (l <? seq)%N then SInserted k else SRefused Old
  | Closing => SPanic
  end.

Definition uevent : Type := uop * uout.
(** The consumers users were given, cloned and dropped: by handle, the track it reads. *)
Definition handling (hs : table nat) (e : uevent) : table nat :=
  match e with
  | (UOp (BSubscribe _ _), UOut (BTrack t _)) => hs ++ [Some t]
  | (UClone h, UUnit) => hs ++ [get hs h]
  | (UDrop h, UUnit) => set_nth h None hs
  | _ => hs
  end.
Definition handles (tr : list uevent) : table nat := fold_left handling tr [].
Definition read_by (tr : list uevent) (t : nat) : Prop := exists h, get (handles tr) h = Some t.
