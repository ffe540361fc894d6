(** What happened to a track of the JavaScript library, read off the calls and their results. *)
From Coq Require Import NArith List Bool Sorted.
From Verif.Model Require Import Base JsTrack.
Import ListNotations.
Open Scope N_scope.

Definition jtrace : Type := list (jop * jres).

(** The groups the writer added, in order; the frames written to one of them. *)
Definition added (tr : jtrace) : list N := flat_map (fun e => match snd e with JNew id => [id] | _ => [] end) tr.
Definition written (tr : jtrace) (id : N) : list bytes :=
  flat_map (fun e => match e with (JWrite i f, JDone) => if i =? id then [f] else [] | _ => [] end) tr.

(** The calls of reader [r]. *)
Definition concerns (r : nat) (o : jop) : bool :=
  match o with
  | JNextGroup n | JNextFrame n | JTickG n | JTickF n | JTickC n _ | JLeave n _ => Nat.eqb n r
  | _ => false
  end.

(** Where reader [r] got to, call by call: at the start of a group it was given, or after a frame of a group. *)
Definition places (r : nat) (tr : jtrace) : list (N * nat) :=
  flat_map (fun e =>
    if concerns r (fst e) then
      match snd e with
      | JGroupIs id => [(id, O)]
      | JFrameIs id k _ => [(id, S k)]
      | _ => []
      end
    else []) tr.
Definition before (p q : N * nat) : Prop := fst p < fst q \/ fst p = fst q /\ (snd p < snd q)%nat.

(** The frames reader [r] got from [nextFrame]. *)
Definition shown (r : nat) (tr : jtrace) : list (N * nat * bytes) :=
  flat_map (fun e =>
    if concerns r (fst e) then match snd e with JFrameIs id k d => [((id, k), d)] | _ => [] end else []) tr.

(** Reader [r] is waiting in a call of [nextFrame]. *)
Definition waits (r : nat) (tr : jtrace) : bool :=
  fold_left (fun w e =>
    if concerns r (fst e) then
      match e with
      | (JNextFrame _, JDone) => true
      | (_, JGroupIs _) | (_, JFrameIs _ _ _) | (_, JOver) | (_, JFailed) => false
      | (JLeave _ _, _) => false
      | _ => w
      end
    else w) tr false.

(** Nothing of what reader [r] awaits has happened. *)
Definition rests (t : jtrack) (r : nat) : Prop :=
  snd (jstep t (JTickG r)) = JIdle /\ snd (jstep t (JTickF r)) = JIdle /\
  forall b, snd (jstep t (JTickC r b)) = JIdle.

(** While reader [r] exists, no two groups are added in one turn: what it awaits can happen in between. *)
Definition unhurried (r : nat) (tr : jtrace) : Prop :=
  forall a x b y c, tr = a ++ x :: b ++ y :: c ->
    In (JConsume, JReaderIs r) a ->
    (exists i, snd x = JNew i) -> (exists j, snd y = JNew j) -> In (JTickG r) (map fst b).
