(** What an endpoint of the JavaScript library published, read off the calls and their results. *)
From Coq Require Import NArith List Bool.
From Verif.Model Require Import Base JsPublish.
Import ListNotations.
Open Scope N_scope.

Definition ptrace : Type := list (pop * pout).
Definition same_path (p q : jpath) : bool := if list_eq_dec N.eq_dec p q then true else false.

(** The announcements, in order: one as a broadcast is published, one as it is taken back. *)
Definition said (tr : ptrace) : list (jpath * bool) :=
  flat_map (fun e => match e with (PPublish p _, _) => [(p, true)] | (_, PEnded p _) => [(p, false)] | _ => [] end) tr.

(** What follower [f] was told. *)
Definition told (f : nat) (tr : ptrace) : list (jpath * bool) :=
  flat_map (fun e => match e with (PNext g, PTold s a) => if Nat.eqb g f then [(s, a)] else [] | _ => [] end) tr.

(** [under pre l l']: [l'] is what [l] says about paths that start with [pre], without it. *)
Inductive under (pre : jpath) : list (jpath * bool) -> list (jpath * bool) -> Prop :=
| under_nil : under pre [] []
| under_take : forall s a l l', under pre l l' -> under pre ((pre ++ s, a) :: l) ((s, a) :: l')
| under_skip : forall p a l l', (forall s, p <> pre ++ s) -> under pre l l' -> under pre ((p, a) :: l) l'.

(** The broadcast last published at [p], unless one was taken back there since. *)
Definition standing (p : jpath) (tr : ptrace) : option nat :=
  fold_left (fun x e =>
    match e with
    | (PPublish q b, _) => if same_path q p then Some b else x
    | (_, PEnded q _) => if same_path q p then None else x
    | _ => x
    end) tr None.

(** The last word about [p]. *)
Definition last_word (p : jpath) (l : list (jpath * bool)) : bool :=
  fold_left (fun x e => if same_path (fst e) p then snd e else x) l false.

Definition published (p : jpath) (tr : ptrace) : nat :=
  length (filter (fun e => match e with (PPublish q _, _) => same_path q p | _ => false end) tr).
Definition taken_back (p : jpath) (tr : ptrace) : nat :=
  length (filter (fun e => match e with (PFinish _, PEnded q _) => same_path q p | _ => false end) tr).

(** A path is published again only after what was published there has been taken back. *)
Definition orderly (tr : ptrace) : Prop :=
  forall a p b out c, tr = a ++ (PPublish p b, out) :: c -> published p a = taken_back p a.

(** Nothing closed is waiting to be taken back. *)
Definition settled_down (s : jpub) : Prop := forall n, snd (pstep s (PFinish n)) = PIdle.

(** [true] first, then in turn. *)
Inductive in_turn : bool -> list bool -> Prop :=
| turn_nil : forall b, in_turn b []
| turn_cons : forall b l, in_turn (negb b) l -> in_turn b (b :: l).
Definition about (p : jpath) (l : list (jpath * bool)) : list bool :=
  map snd (filter (fun e => same_path (fst e) p) l).
