(** What a viewer of a live track should be shown, from the calls and their results alone. *)
From Coq Require Import NArith List Bool Arith.
From Coq Require Import Init.Byte Strings.Byte.
From Verif.Model Require Import Base Frame FrameSys TrackSys Media Transfer Net Live.
From Verif.Spec Require Import MediaSpec.
Import ListNotations.
Open Scope nat_scope.

Notation levent := (lop * lout)%type.

(** The frames given to [write], unless it panicked at once. *)
Definition lwritten (tr : list levent) : list mframe :=
  flat_map (fun e => match e with (LWrite f, LUnit) => [f] | _ => [] end) tr.

(** What viewer [v] was shown: group number, number in the group, frame. *)
Definition shown (v : nat) (tr : list levent) : list (N * nat * mframe) :=
  flat_map (fun e => match e with
                     | (LPoll v' _ _, LShown q k f) => if Nat.eqb v v' then [(q, k, f)] else []
                     | _ => []
                     end) tr.
(** What happened to its reads. *)
Definition results (v : nat) (tr : list levent) : list lout :=
  flat_map (fun e => match e with (LPoll v' _ _, x) => if Nat.eqb v v' then [x] else [] | _ => [] end) tr.

(** The [k]-th frame of the [q]-th group, as a reader sees it. *)
Definition is_frame (gs : list (list mframe)) (x : N * nat * mframe) : Prop :=
  exists g f, nth_error gs (N.to_nat (fst (fst x))) = Some g /\ nth_error g (snd (fst x)) = Some f /\
    snd x = seen (snd (fst x)) f.

(** The next frame of the same group, or the first one of a later group. *)
Definition next_place (a b : N * nat) : Prop :=
  (fst a = fst b /\ snd b = S (snd a)) \/ ((fst a < fst b)%N /\ snd b = 0).
Fixpoint in_order_from (a : N * nat) (l : list (N * nat)) : Prop :=
  match l with [] => True | b :: l => next_place a b /\ in_order_from b l end.
Definition in_order (l : list (N * nat)) : Prop :=
  match l with [] => True | a :: l => snd a = 0 /\ in_order_from a l end.

(** Timestamps below 2^62 microseconds, payloads that fit in memory and on the wire. *)
Definition lmodest (o : lop) : Prop := match o with LWrite f => in_range 62 f | _ => True end.

(** * What there is at a node *)

(** A copy that nothing will be added to. *)
Definition settled (h : rgroup) : Prop :=
  rg_closed h <> None /\ Forall (fun x => fs_closed (snd x) <> None) (rg_frames h).

(** All frames of the last group of [gs] are complete at node [i], and no other copy there is still growing. *)
Definition reached (s : live) (i : nat) (gs : list (list mframe)) : Prop :=
  exists t g h fs, nth_error (nt_tracks (lv_net s)) i = Some t /\ ts_latest t = Some g /\ ts_closed t = None /\
    S (N.to_nat (g_seq g)) = length gs /\ nth_error gs (N.to_nat (g_seq g)) = Some fs /\
    nth_error (nth i (nt_groups (lv_net s)) []) (g_id g) = Some h /\
    length (rg_frames h) = length fs /\ Forall (fun x => fs_closed (snd x) = Some Finished) (rg_frames h) /\
    (forall j h', nth_error (nth i (nt_groups (lv_net s)) []) j = Some h' -> j <> g_id g -> settled h').

(** Viewer [v] is at node [i]. *)
Definition views_at (s : live) (v i : nat) : Prop := exists vw, nth_error (lv_views s) v = Some vw /\ vw_node vw = i.
(** The last frame shown to viewer [v] is the last frame written. *)
Definition up_to_date (v : nat) (tr : list levent) : Prop :=
  exists pre q k f earlier, shown v tr = pre ++ [(q, k, seen k f)] /\ lwritten tr = earlier ++ [f].

(** Reads of viewer [v] and nothing else. *)
Definition polls (v : nat) (ps : list (nat * list nat)) : list lop := map (fun p => LPoll v (fst p) (snd p)) ps.
(** No stream was lost by the transport. *)
Definition nothing_lost (s : live) : Prop :=
  Forall (fun ln => Forall (fun st => st_lost st = false) (ln_streams ln)) (nt_links (lv_net s)).

(** * How long a viewer waits for a group *)

(** The latency viewer [v] asked for. *)
Definition latency (v : nat) (tr : list levent) : N :=
  fold_left (fun l e => match e with (LLatency v' d, LUnit) => if Nat.eqb v v' then d else l | _ => l end) tr 0%N.
(** It asks for nothing below [L]. *)
Definition asks_for (v : nat) (L : N) (e : levent) : Prop :=
  match e with (LLatency v' d, LUnit) => v = v' -> (L <= d)%N | _ => True end.
(** Group [q] has [n] frames. *)
Definition group_of (gs : list (list mframe)) (q : N) (n : nat) : Prop :=
  exists g, nth_error gs (N.to_nat q) = Some g /\ length g = n.
