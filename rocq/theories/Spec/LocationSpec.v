(** What the users of a location track may rely on, in terms of the events of an execution only. *)
From Coq Require Import NArith List Bool.
From Coq Require Import Init.Byte Strings.Byte.
From Verif.Model Require Import Base ErrorCode FrameSys Location.
Import ListNotations.
Open Scope nat_scope.

Notation levent := (lop * lout)%type.

(** ** Positions on the wire: the bits of x, y and zoom, each as four bytes, the most significant first *)
Definition bits (b : list byte) (n : N) : Prop :=
  exists b3 b2 b1 b0, b = [b3; b2; b1; b0] /\ n = (n_of b3 * 2 ^ 24 + n_of b2 * 2 ^ 16 + n_of b1 * 2 ^ 8 + n_of b0)%N.
Definition on_wire (x : place) (b : bytes) : Prop :=
  exists p q r, b = p ++ q ++ r /\ bits p (pc_x x) /\ bits q (pc_y x) /\ bits r (pc_zoom x).
(** The fields are 32 bits. *)
Definition is_place (x : place) : Prop := (pc_x x < 2 ^ 32 /\ pc_y x < 2 ^ 32 /\ pc_zoom x < 2 ^ 32)%N.
Definition positions (tr : list levent) : Prop := forall p x, In (LUpdate p x, LUnit) tr -> is_place x.

(** ** What was put into the track *)

(** What a call puts into the track: a position, or something else through the public track. *)
Inductive content := Pos (x : place) | Other (d : option bytes).
(** The calls that have not returned, newest first; each producer handle is in at most one. *)
Definition call_event (l : list (nat * content)) (e : levent) : list (nat * content) :=
  match e with
  | (LUpdate p x, LUnit) => (p, Pos x) :: l
  | (LRaw p d, LUnit) => (p, Other d) :: l
  | (LStep p, LStored) | (LStep p, LPanic) => filter (fun c => negb (Nat.eqb (fst c) p)) l
  | _ => l
  end.
Definition calls (tr : list levent) : list (nat * content) := fold_left call_event tr [].
Definition call_of (p : nat) (l : list (nat * content)) : list content := map snd (filter (fun c => Nat.eqb (fst c) p) l).

(** What is in the track, in the order of its groups. *)
Fixpoint published_after (l : list (nat * content)) (tr : list levent) : list content :=
  match tr with
  | [] => []
  | e :: tr =>
    match e with (LStep p, LAppended) => call_of p l | _ => [] end ++ published_after (call_event l e) tr
  end.
Definition published (tr : list levent) : list content := published_after [] tr.

Definition newest (tr : list levent) : option content :=
  match rev (published tr) with c :: _ => Some c | [] => None end.

(** ** What readers are told *)

(** How [next] returns for a group. *)
Inductive told (c : content) : lout -> Prop :=
| ToldPos x : c = Pos x -> told c (LGot x)
| ToldEmpty : c = Other None -> told c LEmptyGroup
| ToldWire x d : c = Other (Some d) -> on_wire x d -> told c (LGot x)
| ToldInvalid d : c = Other (Some d) -> length d <> 12 -> told c LInvalidFrame.

Definition answer (x : lout) : bool := match x with LGot _ | LEmptyGroup | LInvalidFrame => true | _ => false end.
(** What the calls of [next] returned to reader [r], other than the end of the track. *)
Definition answers (tr : list levent) (r : nat) : list lout :=
  flat_map (fun e => match e with (LFrame r', x) => if Nat.eqb r r' && answer x then [x] else [] | _ => [] end) tr.

(** How many readers there are. *)
Definition readers (tr : list levent) : nat :=
  length (filter (fun e => match e with (LConsume _, LUnit) => true | _ => false end) tr).
(** Where in [next] reader [r] is: [true] if it has found a group and not yet returned. *)
Definition found_event (r : nat) (b : bool) (e : levent) : bool :=
  match e with
  | (LTrack r', LGroup) => if Nat.eqb r r' then true else b
  | (LFrame r', x) => if Nat.eqb r r' then match x with LPend | LPanic | LBad => b | _ => false end else b
  | (LCancel r', LUnit) => if Nat.eqb r r' then false else b
  | _ => b
  end.
Definition found (tr : list levent) (r : nat) : bool := fold_left (found_event r) tr false.
(** A [next] of reader [r] was dropped after it had found a group. *)
Definition cancelled_late (tr : list levent) (r : nat) : Prop :=
  exists before after, tr = before ++ (LCancel r, LUnit) :: after /\ found before r = true.

(** ** Order of calls *)

(** No call of [update] was made while another one had not returned. *)
Definition one_at_a_time (tr : list levent) : Prop :=
  forall before p x after, tr = before ++ (LUpdate p x, LUnit) :: after -> calls before = [].
Definition no_raw (tr : list levent) : Prop := forall p d, ~ In (LRaw p d, LUnit) tr.
(** Nobody finished the track, and fewer than 2^64 calls were made. *)
Definition unfinished (tr : list levent) : Prop := forall p, ~ In (LFinish p, LUnit) tr.
Definition bounded (w : N) (tr : list levent) : Prop :=
  (12 < 2 ^ w)%N /\ (forall p d, In (LRaw p (Some d), LUnit) tr -> (len d < 2 ^ w)%N) /\ (N.of_nat (length tr) < 2 ^ 64)%N.
