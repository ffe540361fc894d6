(** js/hang/src/watch/video.ts:142-286: the video player of a web page: which decoded frame is shown, and the decoders.

    Decoders are numbered in the order in which they are made, and so are the frames that come out of them.
    Times are integers in one unit (the code: microseconds for timestamps, divided by 1000, and milliseconds for [now]; rounding of
    doubles is left out).  Simplified: a decoder gives any frames at any time until it fails; what it is fed is left out. *)
From Coq Require Import ZArith List Bool Arith.
Import ListNotations.
Open Scope nat_scope.

(** A VideoFrame *)
Record vframe := VF { f_no : nat; f_src : nat; f_ts : Z }.

(** video.ts:153-160.  [v_decs]: for every decoder whether it works; [v_count]: frames that have come out;
    [v_dead]: the effects were disposed of (284). *)
Record video := Video { v_cur : option vframe; v_next : option vframe; v_ref : option Z; v_decs : list bool; v_count : nat; v_dead : bool }.
Definition v_init : video := Video None None None [] 0 false.

Inductive vop :=
| VEffect (ready : bool)      (* the effect of line 175 runs (again); [ready]: enabled, and there are a track and a broadcast (179-186) *)
| VOutput (k : nat) (ts : Z)  (* decoder [k] gives a frame (192) *)
| VError (k : nat)            (* decoder [k] fails (208) *)
| VFrame (now : Z)            (* frame(now) is called *)
| VClose.                     (* close() is called *)
(** What is seen outside.  [EStart]: a subscription and a decoder are made; [EStop]: the effect has run and there is nothing to play;
    [EOut]: a frame comes out; [EDrop], [ESkip]: VideoFrame.close, by anything and by frame(now); [EShow]: frame(now) returns this frame
    and this lag; [EEmpty]: it returns nothing; [EHang]: it goes on for ever; [EEnd]: close() was called. *)
Inductive vev :=
| EStart (k : nat) | EStop | EOut (f : vframe) | EDrop (f : vframe) | ESkip (now : Z) (f : vframe)
| EShow (now : Z) (f : vframe) (lag : Z) | EEmpty (now : Z) | EHang | EEnd.

(** video.ts:257-259: [!this.#ref] holds of [undefined] and of zero *)
Definition new_ref (old : option Z) (r : Z) : Z :=
  match old with
  | None => r
  | Some o => if (o =? 0)%Z || (r >? o)%Z then r else o
  end.

(** video.ts:253-276.  [fuel]: how often the loop may go round *)
Fixpoint v_frame (fuel : nat) (s : video) (now : Z) : video * list vev :=
  match fuel with
  | O => (s, [EHang])
  | S fuel =>
    match v_cur s with
    | None => (s, [EEmpty now])
    | Some c =>
      let r := (f_ts c - now)%Z in
      let ref := new_ref (v_ref s) r in
      let lag := (ref - r)%Z in
      let s := Video (v_cur s) (v_next s) (Some ref) (v_decs s) (v_count s) (v_dead s) in
      match v_next s with
      | None => (s, [EShow now c lag])
      | Some n =>
        if (lag <=? f_ts n - f_ts c)%Z then (s, [EShow now c lag])
        else
          let (s, evs) := v_frame fuel (Video (Some n) None (v_ref s) (v_decs s) (v_count s) (v_dead s)) now in
          (s, ESkip now c :: evs)
      end
    end
  end.

(** video.ts:192-206 *)
Definition v_output (s : video) (k : nat) (ts : Z) : video * list vev :=
  let f := VF (v_count s) k ts in
  match v_cur s with
  | None => (Video (Some f) (v_next s) (v_ref s) (v_decs s) (S (v_count s)) (v_dead s), [EOut f])
  | Some c =>
    match v_next s with
    | None => (Video (Some c) (Some f) (v_ref s) (v_decs s) (S (v_count s)) (v_dead s), [EOut f])
    | Some n => (Video (Some n) (Some f) (v_ref s) (v_decs s) (S (v_count s)) (v_dead s), [EOut f; EDrop c])
    end
  end.

Definition drop_of (o : option vframe) : list vev := match o with Some f => [EDrop f] | None => [] end.
(** video.ts:279-285 *)
Definition v_close (s : video) : video * list vev :=
  (Video None None (v_ref s) (v_decs s) (v_count s) true, drop_of (v_cur s) ++ drop_of (v_next s) ++ [EEnd]).

Fixpoint dec_off (l : list bool) (k : nat) : list bool :=
  match l, k with
  | [], _ => []
  | _ :: l, O => false :: l
  | b :: l, S k => b :: dec_off l k
  end.

(** [VEffect]: video.ts:178-249.  The function that is returned in line 245 is not called by anybody (js/signals/src/index.ts:92-100):
    earlier decoders and subscriptions go on.  What is not possible changes nothing. *)
Definition v_step (s : video) (o : vop) : video * list vev :=
  match o with
  | VEffect ready =>
    if v_dead s then (s, [])
    else if ready then (Video (v_cur s) (v_next s) (v_ref s) (v_decs s ++ [true]) (v_count s) false, [EStart (length (v_decs s))])
    else (s, [EStop])
  | VOutput k ts => if nth k (v_decs s) false then v_output s k ts else (s, [])
  | VError k =>
    if nth k (v_decs s) false then v_close (Video (v_cur s) (v_next s) (v_ref s) (dec_off (v_decs s) k) (v_count s) (v_dead s))
    else (s, [])
  | VFrame now => v_frame 2 s now
  | VClose => v_close s
  end.

(** Everything that is seen, in order *)
Fixpoint v_run (s : video) (ops : list vop) : video * list vev :=
  match ops with
  | [] => (s, [])
  | o :: ops => let (s, a) := v_step s o in let (s, b) := v_run s ops in (s, a ++ b)
  end.
