(** js/hang/src/watch/audio.ts:99-323: the audio player of a web page: when each decoded sample is played.

    Samples (AudioData) are numbered in the order in which they come out of the decoder, and so are the nodes (AudioBufferSourceNode) that play
    them and the AudioContexts.  Times are integers in one unit (the code: seconds as doubles; rounding is left out).
    Simplified: an AudioContext never starts suspended (154-158); the choice of the track and of the broadcast is left out: a decoder gives
    samples exactly while the player is enabled (175, 190); buffers that are used again (263-292) are left out. *)
From Coq Require Import ZArith NArith List Bool Arith.
Import ListNotations.
Open Scope nat_scope.

(** audio.ts:294-318 *)
Record node := Node { n_sample : nat; n_ts : Z; n_when : Z; n_ended : bool }.
(** audio.ts:107-120.  [a_ctx]: how many AudioContexts were made; [root] is the last one.  [a_active]: the nodes in [#active];
    [a_count]: samples that have come. *)
Record audio := Audio { a_on : bool; a_rate : option N; a_ctx : nat; a_ref : option Z; a_nodes : list node; a_active : list nat; a_count : nat }.
Definition a_init : audio := Audio false None 0 None [] [] 0.

(** [cur] is the [currentTime] of the AudioContext that is asked, [max] is [maxLatency] (230). *)
Inductive aop :=
| AEnable (b : bool)                           (* enabled.set(b) *)
| ASample (ts cur : Z) (max rate : N)            (* the decoder gives a sample (187) *)
| AEnded (i : nat) (cur : Z).                  (* node [i] has ended (298): it was stopped or is over *)
(** What is seen outside.  [EOff]: disabling is done; [ESample]: a sample has come; [EPlay]: at time [cur] node [i] is started, to play sample [no] at time [when];
    [EHush]: stop() of a node; [EEnded]: a node has ended; [ELate]: a sample is given back without being played. *)
Inductive aev :=
| EOn | EOff | EContext (c : nat) | ESample (no : nat) (ts cur max : Z) (rate : N)
| EPlay (i no : nat) (ts when cur : Z) | EHush (i : nat) | EEnded (i : nat) (cur : Z) | ELate (no : nat) (ts cur : Z).

(** [!this.#ref], [if (this.#ref)]: zero counts as undefined *)
Definition truthy (r : option Z) : option Z := match r with Some z => if (z =? 0)%Z then None else Some z | None => None end.

(** audio.ts:294-318 *)
Definition schedule (s : audio) (no : nat) (ts when cur : Z) : audio * list aev :=
  let i := length (a_nodes s) in
  (Audio (a_on s) (a_rate s) (a_ctx s) (a_ref s) (a_nodes s ++ [Node no ts when false]) (a_active s ++ [i]) (a_count s), [EPlay i no ts when cur]).

(** audio.ts:226-261 *)
Definition emit (s : audio) (no : nat) (ts cur max : Z) : audio * list aev :=
  let ref := match truthy (a_ref s) with Some r => r | None => (ts - cur - max)%Z end in          (* 232-234 *)
  let when := (ts - ref)%Z in
  let latency := (when - cur)%Z in
  let upd r := Audio (a_on s) (a_rate s) (a_ctx s) (Some r) (a_nodes s) (a_active s) (a_count s) in
  if (latency <? 0)%Z then (upd ref, [ELate no ts cur])                                            (* 239-243 *)
  else if (latency >? max)%Z then                                                                   (* 245-256 *)
    let (s', evs) := schedule (upd (ts - cur - max)%Z) no ts (cur + max)%Z cur in
    (s', map EHush (a_active s) ++ evs)
  else schedule (upd ref) no ts when cur.

Definition rate_eqb (a : option N) (b : N) : bool := match a with Some x => N.eqb x b | None => false end.

Fixpoint node_off (l : list node) (i : nat) : list node :=
  match l, i with
  | [], _ => []
  | n :: l, O => Node (n_sample n) (n_ts n) (n_when n) true :: l
  | n :: l, S i => n :: node_off l i
  end.

(** [AEnable]: audio.ts:134-169; the cleanup of the AudioContext (164-168) is returned and so ignored (js/signals/src/index.ts:92-100).
    [ASample]: audio.ts:217-224; the effect of line 143 runs when the rate changes.
    [AEnded]: audio.ts:298-314.  What is not possible changes nothing. *)
Definition a_step (s : audio) (o : aop) : audio * list aev :=
  match o with
  | AEnable b =>
    if Bool.eqb b (a_on s) then (s, [])
    else if b then
      match a_rate s with
      | None => (Audio true None (a_ctx s) (a_ref s) (a_nodes s) (a_active s) (a_count s), [EOn])
      | Some r => (Audio true (Some r) (S (a_ctx s)) (a_ref s) (a_nodes s) (a_active s) (a_count s), [EOn; EContext (a_ctx s)])
      end
    else (Audio false (a_rate s) (a_ctx s) (a_ref s) (a_nodes s) (a_active s) (a_count s), map EHush (a_active s) ++ [EOff])
  | ASample ts cur max rate =>
    if a_on s then
      let max := Z.of_N max in
      let no := a_count s in
      let new := negb (rate_eqb (a_rate s) rate) in
      let s1 := Audio true (Some rate) (if new then S (a_ctx s) else a_ctx s) (a_ref s) (a_nodes s) (a_active s) (S (a_count s)) in
      let (s2, evs) := emit s1 no ts cur max in
      (s2, ESample no ts cur max rate :: (if new then [EContext (a_ctx s)] else []) ++ evs)
    else (s, [])
  | AEnded i cur =>
    match nth_error (a_nodes s) i with
    | Some n =>
      if n_ended n then (s, [])
      else
        let s1 := Audio (a_on s) (a_rate s) (a_ctx s) (a_ref s) (node_off (a_nodes s) i) (tl (a_active s)) (a_count s) in   (* 301 *)
        match truthy (a_ref s) with                                                                                   (* 304-311 *)
        | Some r =>
          let when := (n_ts n - r)%Z in
          if (when >? cur)%Z then let (s2, evs) := schedule s1 (n_sample n) (n_ts n) when cur in (s2, EEnded i cur :: evs)
          else (s1, [EEnded i cur])
        | None => (s1, [EEnded i cur])
        end
    | None => (s, [])
    end
  end.

Fixpoint a_run (s : audio) (ops : list aop) : audio * list aev :=
  match ops with
  | [] => (s, [])
  | o :: ops => let (s, a) := a_step s o in let (s, b) := a_run s ops in (s, a ++ b)
  end.
