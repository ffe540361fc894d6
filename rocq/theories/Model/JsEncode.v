(** js/hang/src/publish/video.ts:81-178: how a web page encodes what the camera gives into groups.

    Each medium (a camera, one after the other, numbered by [c_media]) has its own track, encoder and [#runFrames]; the group, its state and
    [#active] are shared by all.  What is simplified: what follows a promise that has resolved is run before anything else, so that when the medium is
    changed, a [#runFrames] that waits for a frame (lines 148, 169) ends at once, its encoder giving nothing any more (lines 171-172), and one that is choosing the
    configuration (line 153, asynchronous) goes on until that is done.  An encoder gives a key frame first, as WebCodecs has it.  Left out: errors of the encoder
    (128-133), the frames' contents, what [#decoderConfig] adds, a configuration that is not found (the choice failing), and when key frames are asked for (159-162). *)
From Coq Require Import Arith List Bool.
Import ListNotations.

(** What [#runFrames] of the present medium is doing: waiting for the first frame, choosing, or encoding, once a key frame was given or not *)
Inductive phase := PFirst | PChoose | PRun (key : bool).
Record enc := Enc {
  c_media : nat;                (* media so far *)
  c_cur : option phase;         (* of the present medium *)
  c_late : list nat;            (* earlier media whose [#runFrames] is still choosing *)
  c_group : option nat;         (* #group *)
  c_groups : nat;               (* groups so far *)
  c_active : bool;              (* #active *)
  c_conf : option nat }.        (* #encoderConfig: the medium that it is for *)
Definition c_init : enc := Enc 0 None [] None 0 false None.

Inductive cop := CMedia (on : bool) | CFirst | CChosen (i : nat) | COut (key : bool) | CEof.
Inductive cev :=
| IMedia (on : bool) | IFirst | IChosen (i : nat) | IOut (key : bool) | IEof
| OGroup (g i : nat)         (* group [g] on the track of medium [i] *)
| OFrame (g : nat) (key : bool) | OEnd (g : nat) | OActive (b : bool) | OConf (c : option nat).

Definition end_group (g : option nat) : list cev := match g with Some g => [OEnd g] | None => [] end.

(** [finally], lines 171-177 *)
Definition c_finally (s : enc) : enc * list cev :=
  (Enc (c_media s) (c_cur s) (c_late s) None (c_groups s) false (c_conf s), OActive false :: end_group (c_group s)).

Definition c_emit (e : cev) (r : enc * list cev) : enc * list cev := (fst r, e :: snd r).
Definition c_step (s : enc) (o : cop) : enc * list cev :=
  match o with
  | CMedia on =>   (* 97-140 and the cleanup of 109 *)
    let n := if on then S (c_media s) else c_media s in
    let cur := if on then Some PFirst else None in
    let conf := if on then None else c_conf s in
    (fun r => (fst r, IMedia on :: (if on then [OConf None] else []) ++ snd r))
      (match c_cur s with
       | None => (Enc n cur (c_late s) (c_group s) (c_groups s) (c_active s) conf, [])
       | Some PChoose => (Enc n cur (c_media s :: c_late s) (c_group s) (c_groups s) (c_active s) conf, [])
       | Some _ => c_finally (Enc n cur (c_late s) (c_group s) (c_groups s) (c_active s) conf)
       end)
  | CFirst =>   (* 148-153 *)
    match c_cur s with
    | Some PFirst => (Enc (c_media s) (Some PChoose) (c_late s) (c_group s) (c_groups s) true (c_conf s), [IFirst; OActive true])
    | _ => (s, [])
    end
  | CChosen i =>   (* 154-169 *)
    if existsb (Nat.eqb i) (c_late s)
    then (fun r => (fst r, IChosen i :: OConf (Some i) :: snd r)) (c_finally (Enc (c_media s) (c_cur s) (filter (fun j => negb (i =? j)) (c_late s)) (c_group s) (c_groups s) (c_active s) (Some i)))
    else match c_cur s with
         | Some PChoose => if i =? c_media s then (Enc (c_media s) (Some (PRun false)) (c_late s) (c_group s) (c_groups s) (c_active s) (Some i), [IChosen i; OConf (Some i)]) else (s, [])
         | _ => (s, [])
         end
  | COut key =>   (* 112-127 *)
    match c_cur s with
    | Some (PRun had) =>
      if key
      then (Enc (c_media s) (Some (PRun true)) (c_late s) (Some (c_groups s)) (S (c_groups s)) (c_active s) (c_conf s),
            IOut true :: end_group (c_group s) ++ [OGroup (c_groups s) (c_media s); OFrame (c_groups s) true])
      else if had
      then (s, IOut false :: match c_group s with Some g => [OFrame g false] | None => [] end)
      else (s, [])
    | _ => (s, [])
    end
  | CEof =>   (* the medium ends by itself: 149, 169 *)
    match c_cur s with
    | Some PFirst | Some (PRun _) => c_emit IEof (c_finally (Enc (c_media s) None (c_late s) (c_group s) (c_groups s) (c_active s) (c_conf s)))
    | _ => (s, [])
    end
  end.
Fixpoint c_run (s : enc) (ops : list cop) : enc * list cev :=
  match ops with [] => (s, []) | o :: ops => let (s, a) := c_step s o in let (s, b) := c_run s ops in (s, a ++ b) end.
