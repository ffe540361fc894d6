(** What readers of a catalog track may see, in terms of the events of an execution only. *)
From Coq Require Import NArith List Bool Permutation.
From Coq Require Import Init.Byte Strings.Byte.
From Verif.Model Require Import Base FrameSys Catalog.
Import ListNotations.
Open Scope nat_scope.

Section Spec.
Context {V A L : Type} (veq : V -> V -> bool) (aeq : A -> A -> bool).
Notation catalog := (catalog V A L).
Notation cevent := (cop V A L * cout V A L)%type.

(** ** Content *)

(** The changes made, oldest first. *)
Definition changes (tr : list cevent) : list (change V A L) :=
  flat_map (fun e => match e with (CChange _ d, CUnit) => [d] | _ => [] end) tr.

(** No later change takes the rendition away. *)
Definition stays_v (later : list (change V A L)) (v : V) : bool :=
  forallb (fun d => match d with RemV v' => negb (veq v v') | Set_ _ => false | _ => true end) later.
Definition stays_a (later : list (change V A L)) (a : A) : bool :=
  forallb (fun d => match d with RemA a' => negb (aeq a a') | Set_ _ => false | _ => true end) later.

(** The renditions added and not taken away since, in the order they were added. *)
Fixpoint standing_v (ds : list (change V A L)) : list V :=
  match ds with
  | [] => []
  | d :: later =>
      filter (stays_v later) (match d with AddV v => [v] | Set_ c => ct_video c | _ => [] end) ++ standing_v later
  end.
Fixpoint standing_a (ds : list (change V A L)) : list A :=
  match ds with
  | [] => []
  | d :: later =>
      filter (stays_a later) (match d with AddA a => [a] | Set_ c => ct_audio c | _ => [] end) ++ standing_a later
  end.
(** The location set last. *)
Fixpoint last_location (ds : list (change V A L)) : option (option L) :=
  match ds with
  | [] => None
  | d :: later =>
      match last_location later with
      | Some l => Some l
      | None => match d with SetLoc l => Some l | Set_ c => Some (ct_location c) | _ => None end
      end
  end.

(** A catalog is right about a history if it lists exactly those. *)
Definition describes (init : catalog) (ds : list (change V A L)) (c : catalog) : Prop :=
  ct_video c = standing_v (Set_ init :: ds) /\ ct_audio c = standing_a (Set_ init :: ds) /\
  Some (ct_location c) = last_location (Set_ init :: ds).

(** ** Publications and reads *)

(** The changes made before each call of [publish] that got the lock. *)
Fixpoint publications (ds : list (change V A L)) (tr : list cevent) : list (list (change V A L)) :=
  match tr with
  | [] => []
  | (CChange _ d, CUnit) :: tr => publications (ds ++ [d]) tr
  | (CPublish _, CUnit) :: tr => ds :: publications ds tr
  | _ :: tr => publications ds tr
  end.

(** What each reader has read so far; a clone starts with what its original has read. *)
Definition read_event (ls : list (list (option catalog))) (e : cevent) : list (list (option catalog)) :=
  match e with
  | (CConsume _, CUnit) => ls ++ [[]]
  | (CRClone r, CUnit) => ls ++ [nth r ls []]
  | (CTrack r, CRead c) | (CFrame r, CRead c) => set_nth r (nth r ls [] ++ [c]) ls
  | _ => ls
  end.
Definition reads (tr : list cevent) : list (list (option catalog)) := fold_left read_event tr [].

(** ** Broadcasts *)
Notation bevent := (bcop V A L * bcout V A L)%type.

Definition renditions (c : catalog) : list (rendition V A) := map RV (ct_video c) ++ map RA (ct_audio c).

(** The calls of add_video and add_audio: rendition and media track. *)
Definition asked (tr : list bevent) : list (rendition V A * nat) :=
  flat_map (fun e => match e with (BAdd _ r k, BUnit) => [(r, k)] | _ => [] end) tr.
Definition has_ended (tr : list bevent) (k : nat) : bool :=
  existsb (fun e => match e with (BEnd k', BUnit) => Nat.eqb k k' | _ => false end) tr.
(** The renditions of the tracks that have not ended. *)
Definition live_renditions (tr : list bevent) : list (rendition V A) :=
  map fst (filter (fun x => negb (has_ended tr (snd x))) (asked tr)).

Definition reader_events (tr : list bevent) : list cevent :=
  flat_map (fun e => match e with
                     | (BConsume i, BOut x) => [(CConsume i, x)]
                     | (BRead o, BOut x) => [(o, x)]
                     | _ => []
                     end) tr.

(** [==] on renditions; the lists of videos and audios are separate. *)
Definition req (x y : rendition V A) : bool :=
  match x, y with RV v, RV v' => veq v v' | RA a, RA a' => aeq a a' | _, _ => false end.

(** Every two renditions are different, and each is equal to itself. *)
Definition told_apart (rs : list (rendition V A)) : Prop :=
  NoDup rs /\ forall x y, In x rs -> In y rs -> (req x y = true <-> x = y).

(** Each is equal to itself (a floating point NaN is not). *)
Definition self_equal (rs : list (rendition V A)) : Prop := forall r, In r rs -> req r r = true.

(** The catalog lists only renditions of live tracks, and every such rendition that is not also equal to
    a rendition of a track that has ended. *)
Definition lists_live (tr : list bevent) (c : catalog) : Prop :=
  ct_location c = None /\
  (forall x, In x (renditions c) -> In x (live_renditions tr)) /\
  (forall x k, In (x, k) (asked tr) -> has_ended tr k = false ->
     (forall y k', In (y, k') (asked tr) -> has_ended tr k' = true -> req x y = false) -> In x (renditions c)).

(** ** Bounds: catalogs fit a buffer, and there are fewer than 2^64 of them *)
Section Bounds.
Context (json : catalog -> bytes) (w : N).
Definition in_bounds (init : catalog) (tr : list cevent) : Prop :=
  (forall ds c, In ds (publications [] tr) -> describes init ds c -> (len (json c) < 2 ^ w)%N) /\
  (N.of_nat (length (publications [] tr)) < 2 ^ 64)%N.

(** The catalogs of some of the renditions. *)
Definition catalog_from (rs : list (rendition V A)) (c : catalog) : Prop :=
  ct_location c = None /\ exists rest, Permutation rs (renditions c ++ rest).
Definition bounded (tr : list bevent) : Prop :=
  (forall c, catalog_from (map fst (asked tr)) c -> (len (json c) < 2 ^ w)%N) /\ (N.of_nat (length tr) < 2 ^ 64)%N.

(** No thread can take a step before a track ends or a new call is made. *)
Definition settled (parse : bytes -> option catalog) (m : mode) (s : bcsys V A L) : Prop :=
  forall i, snd (bcstep veq aeq json parse w m s (BGo i)) = BBad \/ snd (bcstep veq aeq json parse w m s (BGo i)) = BWait.
End Bounds.

End Spec.
