(** A room as its member sees it, read off the events. *)
From Coq Require Import NArith List Bool.
From Coq Require Import Init.Byte Strings.Byte.
From Verif.Model Require Import Base Map Room.
Import ListNotations.

Notation revents := (list (rop * rout))%type.

(** The member published broadcast [b] under the name [n]; it is closed. *)
Definition mine (tr : revents) (n : bytes) (b : nat) : Prop := exists x, In (RPublish n b, x) tr.
Definition shut (tr : revents) (b : nat) : Prop := exists x, In (RClose b, x) tr.
(** The member was shown broadcast [b] under the name [n]. *)
Definition shown (tr : revents) : list (bytes * nat) :=
  flat_map (fun e => match e with (RWatch, RFound n b) => [(n, b)] | _ => [] end) tr.

(** [names] of the member's own broadcasts. *)
Definition own_names (tr : revents) : list bytes :=
  flat_map (fun e => match fst e with RPublish n _ => [n] | _ => [] end) tr.
Definition listed (n : bytes) (l : list bytes) : bool := existsb (fun m => if list_eq_dec Byte.byte_eq_dec n m then true else false) l.

(** What was announced in the room [path] while the session lasted, by name: the paths that begin with [path]. *)
Definition in_room (path : bytes) (p : bytes) : option bytes :=
  if list_eq_dec Byte.byte_eq_dec (firstn (length path) p) path then Some (skipn (length path) p) else None.
Fixpoint announced (path : bytes) (tr : revents) : list (bytes * nat) :=
  match tr with
  | [] => []
  | (REnd, _) :: _ => []
  | (RAnnounce p b, _) :: tr => match in_room path p with Some n => (n, b) :: announced path tr | None => announced path tr end
  | _ :: tr => announced path tr
  end.
(** Those of [l] that are not called like a broadcast of the member. *)
Definition others (tr : revents) (l : list (bytes * nat)) : list (bytes * nat) :=
  filter (fun e => negb (listed (fst e) (own_names tr))) l.

(** The text contains no slash but the last character, which is one. *)
Definition whole (p : bytes) : Prop := exists q, p = q ++ ["/"%byte] /\ ~ In "/"%byte q.
