(** The web player as the page and the network see it, read off the events. *)
From Coq Require Import NArith ZArith List Bool.
From Coq Require Import Init.Byte Strings.Byte.
From Verif.Model Require Import Base Player.
Import ListNotations.

Section Spec.
Context {C : Type}.
Notation wevents := (list (wop C * list (effect C))).

Definition effects (tr : wevents) : list (effect C) := flat_map snd tr.
Definition panicked (tr : wevents) : Prop := In EPanic (effects tr).

Definition kind_eqb (a b : kind) : bool :=
  match a, b with Audio, Audio => true | Video, Video => true | _, _ => false end.

(** The subscription of a kind that is held. *)
Definition sub_upd (k : kind) (t : option (sub C)) (e : effect C) : option (sub C) :=
  match e with
  | ESub k' s => if kind_eqb k k' then Some s else t
  | EUnsub k' => if kind_eqb k k' then None else t
  | _ => t
  end.
Definition subscribed (k : kind) (tr : wevents) : option (sub C) := fold_left (sub_upd k) (effects tr) None.

(** How many subscriptions of a kind were made and not dropped. *)
Definition count_upd (k : kind) (n : Z) (e : effect C) : Z :=
  match e with
  | ESub k' _ => if kind_eqb k k' then (n + 1)%Z else n
  | EUnsub k' => if kind_eqb k k' then (n - 1)%Z else n
  | _ => n
  end.
Definition held (k : kind) (tr : wevents) : Z := fold_left (count_upd k) (effects tr) 0%Z.

(** What the page last asked for. *)
Definition muted (tr : wevents) : bool := fold_left (fun m e => match fst e with WMuted b => b | _ => m end) tr false.
Definition worklet (tr : wevents) : bool := fold_left (fun m e => match fst e with WWorklet b => b | _ => m end) tr false.
Definition visible (tr : wevents) : bool := fold_left (fun m e => match fst e with WVisible b => b | _ => m end) tr true.
Definition canvas (tr : wevents) : bool := fold_left (fun m e => match fst e with WCanvas b => b | _ => m end) tr false.
Definition enabled (k : kind) (tr : wevents) : bool :=
  match k with Audio => negb (muted tr) && worklet tr | Video => visible tr && canvas tr end.

(** The last broadcast joined, and the last URL asked for whose answer is still awaited. *)
Definition joined (tr : wevents) : option nat :=
  fold_left (fun j e => match e with EConsume b _ => Some b | _ => j end) (effects tr) None.
Definition happened (x : list (effect C)) : bool := match x with [EBad] => false | _ => true end.
Definition asked (tr : wevents) : option bytes :=
  fold_left (fun j e => match e with
    | (WConnect p, _) => p
    | (WSession _, x) => if happened x then None else j
    | _ => j end) tr None.

(** The catalogs received, each with the broadcast it is of, and the one that holds. *)
Definition cat_upd (j : option nat) (l : list (nat * catalog C)) (e : wop C * list (effect C)) : list (nat * catalog C) :=
  match e, j with
  | (WCatalog (Newer c), x), Some b => if happened x then (b, c) :: l else l
  | _, _ => l
  end.
Fixpoint catalogs_from (j : option nat) (l : list (nat * catalog C)) (tr : wevents) : list (nat * catalog C) :=
  match tr with
  | [] => l
  | e :: tr => catalogs_from (fold_left (fun j e => match e with EConsume b _ => Some b | _ => j end) (snd e) j) (cat_upd j l e) tr
  end.
(** Newest first. *)
Definition received (tr : wevents) : list (nat * catalog C) := catalogs_from None [] tr.
(** Whether the newest word of the catalog track was that it ended. *)
Definition offline (tr : wevents) : bool :=
  fold_left (fun o e => match e with
    | (WCatalog (Newer _), x) => if happened x then false else o
    | (WCatalog Ended, x) => if happened x then true else o
    | _ => o end) tr false.
Definition newest (tr : wevents) : option (nat * catalog C) := if offline tr then None else hd_error (received tr).

Definition first (k : kind) (c : catalog C) : option (rendition C) :=
  hd_error (match k with Audio => ct_audio c | Video => ct_video c end).
Definition tracks_equal (a b : rendition C) : Prop := rn_name a = rn_name b /\ rn_priority a = rn_priority b.

(** The track of kind [k] ended, and neither a catalog nor a command about [k] came since. *)
Definition finished (k : kind) (tr : wevents) : bool :=
  fold_left (fun f e => if happened (snd e) then
    match fst e, k with
    | WTrackEnd k', _ => if kind_eqb k k' then true else f
    | WCatalog (Newer _), _ | WCatalog Ended, _ => false
    | WMuted _, Audio | WWorklet _, Audio | WVisible _, Video | WCanvas _, Video => false
    | _, _ => f
    end else f) tr false.

(** The status the page was last given, and the one that it should have after these events. *)
Definition shown (tr : wevents) : option status :=
  fold_left (fun t e => match e with EStatus st => Some st | _ => t end) (effects tr) None.
Definition due (tr : wevents) : option status :=
  fold_left (fun t e => if happened (snd e) then
    match fst e with
    | WConnect (Some _) => Some Connecting
    | WConnect None => Some Disconnected
    | WSession true => Some Connected
    | WSession false => Some Failure
    | WCatalog (Newer _) => Some Live
    | WCatalog Ended => Some Offline
    | WCatalog Broken => Some Failure
    | _ => t
    end else t) tr None.

(** The first entry of every catalog can be decoded. *)
Definition decodable (builds : C -> bool) (k : kind) (tr : wevents) : Prop :=
  forall b c r, In (b, c) (received tr) -> first k c = Some r -> builds (rn_config r) = true.
(** No two catalogs have the same track first, unless they are of one broadcast and describe it alike. *)
Definition told_apart (k : kind) (tr : wevents) : Prop :=
  forall b c r b' c' r', In (b, c) (received tr) -> In (b', c') (received tr) ->
    first k c = Some r -> first k c' = Some r' -> tracks_equal r r' -> b = b' /\ r = r'.
End Spec.
