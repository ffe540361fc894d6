(** What a viewer sees of a broadcast, from what happened only. *)
From Coq Require Import List Bool.
From Verif.Model Require Import JsWatch.
Import ListNotations.

Notation wlog := (list wev).

(** What is asked for *)
Definition enabled (l : wlog) : bool := fold_left (fun x e => match e with EEnable b => b | _ => x end) l false.
Definition connection (l : wlog) : option nat := fold_left (fun x e => match e with EConn c => c | _ => x end) l None.
Definition path (l : wlog) : nat := fold_left (fun x e => match e with EPath p => p | _ => x end) l 0.
(** What is shown *)
Definition shown (l : wlog) : option (nat * nat) := fold_left (fun x e => match e with EShow y => y | _ => x end) l None.
Definition state_of (l : wlog) : status := fold_left (fun x e => match e with EStatus y => y | _ => x end) l Offline.

Definition listening (l : wlog) (k c p : nat) : Prop := In (EListen k c p) l /\ ~ In (EUnlisten k) l.
Definition consumed (l : wlog) (n c p : nat) : Prop := In (EConsume n c p) l /\ ~ In (EClose n) l.
(** Catalog [k] is the one of broadcast [n], and not closed *)
Definition loads (l : wlog) (k n : nat) : Prop := In (ELoad k n) l /\ ~ In (EUnload k) l.
Definition running (l : wlog) (k : nat) : Prop := (exists n, In (ELoad k n) l) /\ ~ In (EEnd k) l.

(** What the present listener has heard last, if anything *)
Definition heard (l : wlog) : option bool :=
  fold_left (fun x e => match e with EListen _ _ _ | EUnlisten _ => None | EAnn _ a => Some a | _ => x end) l None.
(** What any listener has heard last *)
Definition ever_heard (l : wlog) : bool := fold_left (fun x e => match e with EAnn _ a => a | _ => x end) l false.

(** No catalog is loaded before the one before has ended. *)
Definition one_by_one (l : wlog) : Prop := forall a k n b, l = a ++ ELoad k n :: b -> forall j, ~ running a j.

(** Nothing changes but that the broadcast is announced, once more, and catalogs come and end. *)
Definition announcing (o : wop) : Prop := match o with WAnn _ true | WCat _ _ | WEnd _ => True | _ => False end.
