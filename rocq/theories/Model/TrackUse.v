(** Who holds a consumer of a track of a broadcast: the receivers counted by [TrackProducer::unused]
    (rs/moq/src/model/track.rs:123-128), on which run_subscribe (rs/moq/src/session/subscriber.rs:166-169)
    relies to cancel an upstream subscription nobody reads. *)
From Coq Require Import NArith List Bool.
From Coq Require Import Init.Byte Strings.Byte.
From Verif.Model Require Import Base ErrorCode Stream Frame FrameSys Map BroadcastSys.
Import ListNotations.
Open Scope nat_scope.

(** [us_users]: the consumers handed to users by [subscribe], and their clones, by track. *)
Record usys := USys { us_bcast : bsys; us_users : table nat }.
Definition usys_new : usys := USys bsys_new [].

Inductive uop :=
| UOp (o : bop)
| UClone (h : nat)         (* TrackConsumer::clone *)
| UDrop (h : nat)          (* the user drops a consumer *)
| UUnused (t : nat).       (* poll unused() on a producer of track [t] *)

Inductive uout := UOut (x : bout) | UUnit | UBad | UIdle (b : bool).

Definition holds (t : nat) (x : option nat) : bool := match x with Some u => Nat.eqb u t | None => false end.

(** tokio's [watch::Sender::closed] waits until no receiver is left.  Receivers: users' consumers, the
    entry in the lookup table (broadcast.rs:60-64, 204-206), the consumer each cleanup task was given
    (broadcast.rs:47, 66) and keeps until the track ends (73). *)
Definition idle_track (s : usys) (t : nat) : bool :=
  negb (existsb (holds t) (us_users s)) &&
  negb (existsb (fun e => Nat.eqb (snd e) t) (bs_published (us_bcast s))) &&
  negb (existsb (holds t) (bs_tasks (us_bcast s))).

Definition ustep (s : usys) (o : uop) : usys * uout :=
  match o with
  | UOp o =>
      let (b, x) := bstep (us_bcast s) o in
      (USys b (match o, x with BSubscribe _ _, BTrack t _ => us_users s ++ [Some t] | _, _ => us_users s end), UOut x)
  | UClone h =>
      match get (us_users s) h with
      | None => (s, UBad)
      | Some t => (USys (us_bcast s) (us_users s ++ [Some t]), UUnit)
      end
  | UDrop h =>
      match get (us_users s) h with
      | None => (s, UBad)
      | Some _ => (USys (us_bcast s) (set_nth h None (us_users s)), UUnit)
      end
  | UUnused t =>
      match nth_error (bs_tracks (us_bcast s)) t with
      | None => (s, UBad)
      | Some _ => (s, UIdle (idle_track s t))
      end
  end.

Fixpoint urun (s : usys) (ops : list uop) : usys * list (uop * uout) :=
  match ops with
  | [] => (s, [])
  | o :: ops => let (s1, x) := ustep s o in let (s2, tr) := urun s1 ops in (s2, (o, x) :: tr)
  end.
