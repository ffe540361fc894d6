(** Asking for a track of a broadcast that came through a session
    (rs/moq/src/session/subscriber.rs:126-162, publisher.rs:131-139). *)
From Coq Require Import NArith List Bool.
From Coq Require Import Init.Byte Strings.Byte.
From Verif.Model Require Import OriginSys Base Coding Message ErrorCode Stream Frame FrameSys Map Publisher ReceiverSys Spread.
Import ListNotations.
Open Scope nat_scope.

(** subscriber.rs:139-162: the task of broadcast [b], if it runs at the receiving end of hop [p], asks for this
    path.  (No request gets through a closed session.) *)
Definition ask_path (s : spread) (p : hop) (b : nat) : option bytes :=
  match nth_error (sp_origins s) (hp_dst p) with
  | None => None
  | Some r =>
      if hp_open p then
        match snd (rstep (RSys r (hp_map p) (hp_left p) (hp_runs p) (hp_open p)) (RSubscribe b)) with
        | RAsked path => Some path
        | _ => None
        end
      else None
  end.

(** publisher.rs:138-139: the publishing end looks the path up in its origin and subscribes to what it finds. *)
Definition ask_found (s : spread) (p : hop) (path : bytes) : option nat :=
  match nth_error (sp_origins s) (hp_src p) with
  | None => None
  | Some o => match snd (ostep o (OLookup 0 path)) with OFound x => x | _ => None end
  end.
