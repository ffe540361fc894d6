(** js/hang/src/watch/broadcast.ts:54-152: how a web page finds and loads a broadcast.

    Connections and paths are numbers; listeners for announcements (85), broadcasts (115) and catalogs (130) are numbered as they are made.
    The page is in its default mode, [reload].  Effects of solid-js rerun, after their cleanups, when a signal has changed that they have read,
    in the order in which they were made.  Simplified: a listener or catalog that was closed yields nothing more, its loop only ends; an
    announcement of a longer path is left out (95-99: ignored); [close] is left out. *)
From Coq Require Import List Bool Arith.
Import ListNotations.

Inductive status := Offline | Loading | Live.

(** [w_listen]: the open listener, if any, that the first effect made; [w_cons]: the broadcast of the second effect (its signal [#broadcast]);
    [w_load]: the catalog of the third effect; [w_run]: which catalog loops have not ended; [w_catalog]: from which loop, and what. *)
Record watch := Watch { w_en : bool; w_conn : option nat; w_path : nat; w_active : bool; w_listen : option nat; w_nlisten : nat;
  w_cons : option nat; w_ncons : nat; w_load : option nat; w_run : list bool; w_catalog : option (nat * nat); w_status : status }.
Definition w_init : watch := Watch false None 0 false None 0 None 0 None [] None Offline.

Inductive wop :=
| WEnable (b : bool) | WConn (c : option nat) | WPath (p : nat)   (* enabled.set, the connection is lost or made, path.set *)
| WAnn (k : nat) (a : bool)                                       (* listener [k] hears that the broadcast is active, or not *)
| WCat (k v : nat)                                                (* catalog [k] yields [v] *)
| WEnd (k : nat).                                                 (* catalog [k] ends, or fails, or was closed *)
Inductive wev :=
| EEnable (b : bool) | EConn (c : option nat) | EPath (p : nat)
| EListen (k c p : nat) | EUnlisten (k : nat) | EAnn (k : nat) (a : bool)
| EConsume (n c p : nat) | EClose (n : nat)
| ELoad (k n : nat) | EUnload (k : nat) | ECat (k v : nat) | EEnd (k : nat)
| EShow (x : option (nat * nat)) | EStatus (st : status).         (* the signals [catalog] and [status] are set *)

Definition one {A} (f : A -> wev) (o : option A) : list wev := match o with Some x => [f x] | None => [] end.

(** broadcast.ts:71-104, after its cleanup (86) *)
Definition run_active (s : watch) : watch * list wev :=
  let e1 := one EUnlisten (w_listen s) in
  match w_conn s with
  | Some c =>
    if w_en s
    then (Watch (w_en s) (w_conn s) (w_path s) (w_active s) (Some (w_nlisten s)) (S (w_nlisten s)) (w_cons s) (w_ncons s) (w_load s) (w_run s) (w_catalog s) (w_status s),
          e1 ++ [EListen (w_nlisten s) c (w_path s)])
    else (Watch (w_en s) (w_conn s) (w_path s) (w_active s) None (w_nlisten s) (w_cons s) (w_ncons s) (w_load s) (w_run s) (w_catalog s) (w_status s), e1)
  | None => (Watch (w_en s) (w_conn s) (w_path s) (w_active s) None (w_nlisten s) (w_cons s) (w_ncons s) (w_load s) (w_run s) (w_catalog s) (w_status s), e1)
  end.
(** broadcast.ts:106-120, after its cleanups (116, 119) *)
Definition run_broadcast (s : watch) : watch * list wev :=
  let e1 := one EClose (w_cons s) in
  match w_conn s with
  | Some c =>
    if w_en s && w_active s
    then (Watch (w_en s) (w_conn s) (w_path s) (w_active s) (w_listen s) (w_nlisten s) (Some (w_ncons s)) (S (w_ncons s)) (w_load s) (w_run s) (w_catalog s) (w_status s),
          e1 ++ [EConsume (w_ncons s) c (w_path s)])
    else (Watch (w_en s) (w_conn s) (w_path s) (w_active s) (w_listen s) (w_nlisten s) None (w_ncons s) (w_load s) (w_run s) (w_catalog s) (w_status s), e1)
  | None => (Watch (w_en s) (w_conn s) (w_path s) (w_active s) (w_listen s) (w_nlisten s) None (w_ncons s) (w_load s) (w_run s) (w_catalog s) (w_status s), e1)
  end.
(** broadcast.ts:122-131, after its cleanup (131) *)
Definition run_catalog (s : watch) : watch * list wev :=
  let e1 := one EUnload (w_load s) in
  match w_cons s with
  | Some n =>
    if w_en s
    then (Watch (w_en s) (w_conn s) (w_path s) (w_active s) (w_listen s) (w_nlisten s) (w_cons s) (w_ncons s) (Some (length (w_run s))) (w_run s ++ [true]) (w_catalog s) Loading,
          e1 ++ [EStatus Loading; ELoad (length (w_run s)) n])
    else (Watch (w_en s) (w_conn s) (w_path s) (w_active s) (w_listen s) (w_nlisten s) (w_cons s) (w_ncons s) None (w_run s) (w_catalog s) (w_status s), e1)
  | None => (Watch (w_en s) (w_conn s) (w_path s) (w_active s) (w_listen s) (w_nlisten s) (w_cons s) (w_ncons s) None (w_run s) (w_catalog s) (w_status s), e1)
  end.

Definition opt_eqb (a b : option nat) : bool :=
  match a, b with None, None => true | Some x, Some y => Nat.eqb x y | _, _ => false end.
(** The second effect, and the third if it is due: [#broadcast] has changed, or [enabled] has ([f]) *)
Definition run_rest (f : bool) (s : watch) : watch * list wev :=
  let (s1, a) := run_broadcast s in
  if f || negb (opt_eqb (w_cons s1) (w_cons s)) then let (s2, b) := run_catalog s1 in (s2, a ++ b) else (s1, a).
Definition run_all (f : bool) (s : watch) : watch * list wev :=
  let (s1, a) := run_active s in let (s2, b) := run_rest f s1 in (s2, a ++ b).

Fixpoint stop (l : list bool) (k : nat) : list bool :=
  match l, k with [], _ => [] | _ :: l, O => false :: l | b :: l, S k => b :: stop l k end.
Definition emit (e : wev) (r : watch * list wev) : watch * list wev := (fst r, e :: snd r).

Definition w_step (s : watch) (o : wop) : watch * list wev :=
  match o with
  | WEnable b =>
    if Bool.eqb b (w_en s) then (s, [])
    else emit (EEnable b) (run_all true (Watch b (w_conn s) (w_path s) (w_active s) (w_listen s) (w_nlisten s) (w_cons s) (w_ncons s) (w_load s) (w_run s) (w_catalog s) (w_status s)))
  | WConn c =>
    if opt_eqb c (w_conn s) then (s, [])
    else emit (EConn c) (run_all false (Watch (w_en s) c (w_path s) (w_active s) (w_listen s) (w_nlisten s) (w_cons s) (w_ncons s) (w_load s) (w_run s) (w_catalog s) (w_status s)))
  | WPath p =>
    if Nat.eqb p (w_path s) then (s, [])
    else emit (EPath p) (run_all false (Watch (w_en s) (w_conn s) p (w_active s) (w_listen s) (w_nlisten s) (w_cons s) (w_ncons s) (w_load s) (w_run s) (w_catalog s) (w_status s)))
  | WAnn k a =>   (* 88-102 *)
    if opt_eqb (Some k) (w_listen s)
    then emit (EAnn k a)
      (if Bool.eqb a (w_active s) then (s, [])
       else run_rest false (Watch (w_en s) (w_conn s) (w_path s) a (w_listen s) (w_nlisten s) (w_cons s) (w_ncons s) (w_load s) (w_run s) (w_catalog s) (w_status s)))
    else (s, [])
  | WCat k v =>   (* 134-143 *)
    match nth_error (w_run s) k with
    | Some true =>
      if opt_eqb (Some k) (w_load s)
      then (Watch (w_en s) (w_conn s) (w_path s) (w_active s) (w_listen s) (w_nlisten s) (w_cons s) (w_ncons s) (w_load s) (w_run s) (Some (k, v)) Live,
            [ECat k v; EShow (Some (k, v)); EStatus Live])
      else (s, [])
    | _ => (s, [])
    end
  | WEnd k =>     (* 144-149 *)
    match nth_error (w_run s) k with
    | Some true =>
      (Watch (w_en s) (w_conn s) (w_path s) (w_active s) (w_listen s) (w_nlisten s) (w_cons s) (w_ncons s) (w_load s) (stop (w_run s) k) None Offline,
       [EEnd k; EShow None; EStatus Offline])
    | _ => (s, [])
    end
  end.
Fixpoint w_run_ops (s : watch) (ops : list wop) : watch * list wev :=
  match ops with
  | [] => (s, [])
  | o :: ops => let (s, a) := w_step s o in let (s, b) := w_run_ops s ops in (s, a ++ b)
  end.
