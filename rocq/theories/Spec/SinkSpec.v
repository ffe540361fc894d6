(** What was fed to the sink, and what went wrong. *)
From Coq Require Import NArith List Bool.
From Coq Require Import Init.Byte Strings.Byte.
From Verif.Model Require Import Base Import Sink.
Import ListNotations.

(** The buffers given to the sink since each successful start, in order. *)
Fixpoint fed_from (acc : list (list bytes)) (tr : list (skop * skout)) : list (list bytes) :=
  match tr with
  | [] => acc
  | (KStart _, KOk) :: tr => fed_from (acc ++ [[]]) tr
  | (KRender (Some d), KOk) :: tr => fed_from (removelast acc ++ [last acc [] ++ [d]]) tr
  | (_, _) :: tr => fed_from acc tr
  end.
Definition fed (tr : list (skop * skout)) : list (list bytes) := fed_from [] tr.

(** Something panicked. *)
Definition panicked (tr : list (skop * skout)) : Prop := exists op, In (op, KPosted) tr.
(** A start panicked. *)
Definition start_panicked (tr : list (skop * skout)) : Prop :=
  exists tr1 u tr2, tr = tr1 ++ (KStart u, KPosted) :: tr2 /\ ~ panicked tr1.

(** The URL that was set last. *)
Fixpoint url_from (u : option bytes) (tr : list (skop * skout)) : option bytes :=
  match tr with
  | [] => u
  | (KUrl v, KOk) :: tr => url_from v tr
  | _ :: tr => url_from u tr
  end.
Definition url_of (tr : list (skop * skout)) : option bytes := url_from None tr.

(** Setting or getting a property. *)
Definition is_property (op : skop) : Prop := match op with KUrl _ | KInsecure _ | KGet => True | _ => False end.

(** Reasons to panic, after [tr] without any. *)
Definition no_good (dec : decoder) (m : mode) (w : N) (tr : list (skop * skout)) (op : skop) : Prop :=
  match op with
  | KStart UConnect | KStart USession => True
  | KStart _ => url_of tr = None
  | KRender (Some d) => fed tr = [] \/ forall r, snd (feed dec m w (last (fed tr) [] ++ [d]) imp_new) <> POk r
  | _ => False
  end.

(** What was fed in all, if [op] was the one that panicked. *)
Definition fed_more (tr : list (skop * skout)) (op : skop) : list (list bytes) :=
  match op, fed tr with
  | KRender (Some d), _ :: _ => removelast (fed tr) ++ [last (fed tr) [] ++ [d]]
  | _, l => l
  end.
