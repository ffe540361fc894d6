(** When a microphone should be published, from what happened only. *)
From Coq Require Import List.
From Verif.Model Require Import JsMic.
Import ListNotations.

Definition enabled (l : list mev) : bool := fold_left (fun x e => match e with EOn b => b | _ => x end) l false.
Definition microphone (l : list mev) : option nat := fold_left (fun x e => match e with EMedia m => m | _ => x end) l None.
(** Nothing is being waited for. *)
Definition idle (l : list mev) : Prop := forall k, In (ELoad k) l -> In (ELoaded k) l.
Definition published (l : list mev) : Prop := exists n, In (EPub n) l /\ ~ In (EUnpub n) l.
