(** What a client of the relay's HTTP interface observes. *)
From Coq Require Import NArith List Bool.
From Coq Require Import Init.Byte Strings.Byte.
From Verif.Model Require Import Base ErrorCode Stream Frame FrameSys GroupSys Map OriginSys Web.
From Verif.Spec Require Import GroupSpec.
Import ListNotations.

Definition wevent : Type := wop * wout.
(** What happened to the group. *)
Definition group_events (tr : list wevent) : list gevent :=
  flat_map (fun e => match e with (WOther o, WDid x _) => [(o, x)] | _ => [] end) tr.
(** The pieces of the body delivered. *)
Definition pieces (tr : list wevent) : list bytes :=
  flat_map (fun e => match e with (WPoll, WPolled (AOk (Some d))) => [d] | _ => [] end) tr.
(** Something woke the task of the response. *)
Definition woken (tr : list wevent) : Prop := exists o x, In (o, WDid x true) tr.
