(** An origin: announced broadcasts, its producers, its announcement consumers and the background tasks
    (rs/moq/src/model/origin.rs).  Broadcasts are numbered; of a broadcast only whether it is closed
    (BroadcastConsumer::closed has resolved) matters here. *)
From Coq Require Import NArith List Bool.
From Coq Require Import Init.Byte Strings.Byte.
From Verif.Model Require Import Base ErrorCode Stream Frame FrameSys Map.
Import ListNotations.
Open Scope nat_scope.

(** [str::strip_prefix] *)
Fixpoint strip_prefix (pre s : bytes) : option bytes :=
  match pre, s with
  | [], _ => Some s
  | a :: pre, b :: s => if Byte.eqb a b then strip_prefix pre s else None
  | _ :: _, [] => None
  end.

Definition updates := list (bytes * nat).

(** origin.rs:166-170 [OriginConsumer] with its [ConsumerState] (52-55).  [oc_token]: the one slot of the
    notification channel; [oc_recv]: a [next] future is suspended in [notify.recv()];
    [oc_linked]: its sender was registered with the producer state. *)
Record ocons := OCons { oc_prefix : bytes; oc_updates : updates; oc_token : bool; oc_recv : bool; oc_linked : bool }.

(** origin.rs:8-11 [ProducerState] ([os_vec]: the consumers it knows, by number), the handles, clones of
    consumers in the middle of [clone] (their copied state) and the cleanup tasks spawned by [publish]. *)
Record osys := OSys {
  os_active : map_of nat; os_vec : list nat; os_cons : table ocons; os_copies : table (bytes * updates);
  os_prods : table unit; os_tasks : table (bytes * nat); os_closed : list bool }.

Definition osys_new : osys := OSys [] [] [] [] [Some tt] [] [].

(** Somebody holds a strong reference to the producer state: a producer or a cleanup task (84).
    ([unused] borrows a producer for as long as it is polled.) *)
Definition os_alive (s : osys) : bool := live (os_prods s) || live (os_tasks s).

(** [Vec::swap_remove] *)
Definition swap_remove (i : nat) (l : list nat) : list nat :=
  match l with [] => [] | x :: _ => removelast (set_nth i (last l x) l) end.

(** origin.rs:58-65 [ConsumerState::insert], and 19-21: the notification *)
Definition oc_insert (path : bytes) (b : nat) (k : ocons) : ocons :=
  match strip_prefix (oc_prefix k) path with
  | Some suffix => OCons (oc_prefix k) (oc_updates k ++ [(suffix, b)]) true (oc_recv k) (oc_linked k)
  | None => k
  end.

(** origin.rs:15-26: the loop of [ProducerState::publish] from index [i]; a consumer is gone from the
    table once dropped, which closes its channel.  Every turn moves [i] or shortens the list, so
    [length vec] turns suffice. *)
Fixpoint announce (fuel i : nat) (path : bytes) (b : nat) (cons : table ocons) (vec : list nat) : table ocons * list nat :=
  match fuel with
  | O => (cons, vec)
  | S fuel =>
      match nth_error vec i with
      | None => (cons, vec)
      | Some c =>
          match get cons c with
          | Some k => announce fuel (S i) path b (set_nth c (Some (oc_insert path b k)) cons) vec
          | None => announce fuel i path b cons (swap_remove i vec)
          end
      end
  end.

(** HashMap iteration order is arbitrary: the schedule supplies it as a list of choices. *)
Fixpoint pick {A} (n : nat) (l : list A) {struct l} : option (A * list A) :=
  match l with
  | [] => None
  | x :: l => match n with
              | O => Some (x, l)
              | S n => match pick n l with Some (y, l') => Some (y, x :: l') | None => Some (x, l) end
              end
  end.
Fixpoint shuffle {A} (ks : list nat) (l : list A) : list A :=
  match ks with
  | [] => l
  | k :: ks => match pick k l with Some (x, l') => x :: shuffle ks l' | None => [] end
  end.

(** origin.rs:31-42 [ProducerState::consume] *)
Definition snapshot_of (pre : bytes) (ks : list nat) (active : map_of nat) : updates :=
  flat_map (fun e => match strip_prefix pre (fst e) with Some suffix => [(suffix, snd e)] | None => [] end) (shuffle ks active).

(** origin.rs:150-162 [unused_inner] *)
Fixpoint pop_closed (cons : table ocons) (rvec : list nat) : list nat :=
  match rvec with
  | [] => []
  | c :: r => match get cons c with Some _ => c :: r | None => pop_closed cons r end
  end.

Definition owith_cons s x := OSys (os_active s) (os_vec s) x (os_copies s) (os_prods s) (os_tasks s) (os_closed s).

Inductive oop :=
| ONew                                            (* a broadcast comes into being *)
| OEnd (b : nat)                                  (* it finishes, or all its producers are dropped *)
| OPublish (p : nat) (path : bytes) (b : nat)     (* producer.publish *)
| OTask (k : nat)                                 (* cleanup task [k] gets to run *)
| OLookup (p : nat) (path : bytes)                (* producer.consume *)
| OConsume (p : nat) (pre : bytes) (ks : list nat)   (* producer.consume_prefix *)
| OPop (c : nat)                                  (* next: the critical section *)
| ORecv (c : nat)                                 (* next: poll notify.recv *)
| OCancel (c : nat)                               (* drop the suspended next *)
| OCDrop (c : nat)
| OCloneCopy (c : nat)                            (* first half of consumer.clone *)
| OCloneLink (k : nat)                            (* second half *)
| OClone (p : nat)
| ODrop (p : nat)
| OUnused (p : nat).                              (* poll unused: one turn of its loop *)

Inductive oout :=
| OUnit | OBad | OBroadcast (b : nat) | OUnique (b : bool) | ORan (path : bytes) | OFound (b : option nat)
| OConsumer (c : nat) | OGot (suffix : bytes) (b : nat) | OEmpty | OWoken | OWaits | ODone | OCopy (k : nat) | OIdle (b : bool).

Definition ostep (s : osys) (o : oop) : osys * oout :=
  match o with
  | ONew => (OSys (os_active s) (os_vec s) (os_cons s) (os_copies s) (os_prods s) (os_tasks s) (os_closed s ++ [false]),
             OBroadcast (length (os_closed s)))
  | OEnd b =>
      match nth_error (os_closed s) b with
      | None => (s, OBad)
      | Some _ => (OSys (os_active s) (os_vec s) (os_cons s) (os_copies s) (os_prods s) (os_tasks s) (set_nth b true (os_closed s)), OUnit)
      end
  | OPublish p path b =>                                                   (* origin.rs:80-91, 14-29 *)
      match get (os_prods s) p, nth_error (os_closed s) b with
      | Some _, Some _ =>
          let (cons, vec) := announce (length (os_vec s)) 0 path b (os_cons s) (os_vec s) in
          let unique := match lookup path (os_active s) with None => true | Some _ => false end in
          (OSys (put path b (os_active s)) vec cons (os_copies s) (os_prods s) (os_tasks s ++ [Some (path, b)]) (os_closed s),
           OUnique unique)
      | _, _ => (s, OBad)
      end
  | OTask k =>                                                             (* origin.rs:85-88 *)
      match get (os_tasks s) k with
      | None => (s, OBad)
      | Some (path, b) =>
          match nth_error (os_closed s) b with
          | Some true => (OSys (remove path (os_active s)) (os_vec s) (os_cons s) (os_copies s) (os_prods s)
                            (set_nth k None (os_tasks s)) (os_closed s), ORan path)
          | _ => (s, OBad)
          end
      end
  | OLookup p path =>                                                      (* origin.rs:122-124 *)
      match get (os_prods s) p with None => (s, OBad) | Some _ => (s, OFound (lookup path (os_active s))) end
  | OConsume p pre ks =>                                                   (* origin.rs:132-137 *)
      match get (os_prods s) p with
      | None => (s, OBad)
      | Some _ =>
          let c := length (os_cons s) in
          (OSys (os_active s) (os_vec s ++ [c])
             (os_cons s ++ [Some (OCons pre (snapshot_of pre ks (os_active s)) false false true)])
             (os_copies s) (os_prods s) (os_tasks s) (os_closed s), OConsumer c)
      end
  | OPop c =>                                                              (* origin.rs:184-190 *)
      match get (os_cons s) c with
      | Some (OCons pre u tok false l) =>
          match u with
          | (suffix, b) :: u => (owith_cons s (set_nth c (Some (OCons pre u tok false l)) (os_cons s)), OGot suffix b)
          | [] => (owith_cons s (set_nth c (Some (OCons pre [] tok true l)) (os_cons s)), OEmpty)
          end
      | _ => (s, OBad)
      end
  | ORecv c =>                                                             (* origin.rs:192 *)
      match get (os_cons s) c with
      | Some (OCons pre u tok true l) =>
          if tok then (owith_cons s (set_nth c (Some (OCons pre u false false l)) (os_cons s)), OWoken)
          else if l && os_alive s then (s, OWaits)
          else (owith_cons s (set_nth c (Some (OCons pre u false false l)) (os_cons s)), ODone)
      | _ => (s, OBad)
      end
  | OCancel c =>
      match get (os_cons s) c with
      | Some (OCons pre u tok true l) => (owith_cons s (set_nth c (Some (OCons pre u tok false l)) (os_cons s)), OUnit)
      | _ => (s, OBad)
      end
  | OCDrop c =>
      match get (os_cons s) c with
      | Some _ => (owith_cons s (set_nth c None (os_cons s)), OUnit)
      | None => (s, OBad)
      end
  | OCloneCopy c =>                                                        (* origin.rs:203 *)
      match get (os_cons s) c with
      | Some k => (OSys (os_active s) (os_vec s) (os_cons s) (os_copies s ++ [Some (oc_prefix k, oc_updates k)]) (os_prods s) (os_tasks s) (os_closed s),
                   OCopy (length (os_copies s)))
      | None => (s, OBad)
      end
  | OCloneLink k =>                                                        (* origin.rs:205-215 *)
      match get (os_copies s) k with
      | Some (pre, u) =>
          let c := length (os_cons s) in
          let alive := os_alive s in
          (OSys (os_active s) (if alive then os_vec s ++ [c] else os_vec s) (os_cons s ++ [Some (OCons pre u false false alive)])
             (set_nth k None (os_copies s)) (os_prods s) (os_tasks s) (os_closed s), OConsumer c)
      | None => (s, OBad)
      end
  | OClone p =>
      match get (os_prods s) p with
      | None => (s, OBad)
      | Some _ => (OSys (os_active s) (os_vec s) (os_cons s) (os_copies s) (os_prods s ++ [Some tt]) (os_tasks s) (os_closed s), OUnit)
      end
  | ODrop p =>
      match get (os_prods s) p with
      | None => (s, OBad)
      | Some _ => (OSys (os_active s) (os_vec s) (os_cons s) (os_copies s) (set_nth p None (os_prods s)) (os_tasks s) (os_closed s), OUnit)
      end
  | OUnused p =>                                                           (* origin.rs:142-162 *)
      match get (os_prods s) p with
      | None => (s, OBad)
      | Some _ =>
          let vec := rev (pop_closed (os_cons s) (rev (os_vec s))) in
          (OSys (os_active s) vec (os_cons s) (os_copies s) (os_prods s) (os_tasks s) (os_closed s),
           OIdle (match vec with [] => true | _ => false end))
      end
  end.

Fixpoint orun (s : osys) (ops : list oop) : osys * list (oop * oout) :=
  match ops with
  | [] => (s, [])
  | o :: ops => let (s1, x) := ostep s o in let (s2, tr) := orun s1 ops in (s2, (o, x) :: tr)
  end.
