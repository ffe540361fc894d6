(** How a relay finds the other relays of its cluster: [Cluster::run], [run_leaf], [run_root], [run_remote] and
    [run_remote_once] in rs/moq-relay/src/cluster.rs, as used by rs/moq-relay/src/main.rs L23-25.

    Simplified: URLs are the host names put into them, the token is left out; a broadcast is a number; whether and
    when connecting succeeds, what the root announces and when it withdraws it, is arbitrary.  A task polls its
    [select!] whenever anything it waits for happened; the branch for the withdrawal comes first ([biased], L150-151).
    Dropping the session (L151, when that branch wins) does not end it: the tasks it spawned own clones of the
    transport (rs/moq/src/session/mod.rs L41-62), so only the transport or the peer ends it. *)
From Coq Require Import NArith List Bool.
From Coq Require Import Init.Byte Strings.Byte.
From Verif.Model Require Import Base Map FrameSys OriginSys.
Import ListNotations.

(** [ClusterConfig], L12-30 *)
Record config := Config { cf_connect : option bytes; cf_advertise : option bytes; cf_prefix : option bytes }.

(** L46 *)
Definition default_path : bytes :=
  ["i"; "n"; "t"; "e"; "r"; "n"; "a"; "l"; "/"; "o"; "r"; "i"; "g"; "i"; "n"; "s"]%byte.
Definition prefix_of (c : config) : bytes := match cf_prefix c with Some p => p | None => default_path end.

(** [run_remote], L145-165, per discovered node: spawned but not yet run, in [run_remote_once] before and after the
    session is there, in the sleep of L161, ended. *)
Inductive stage := Ready | Dialing | Live (link : nat) | Sleeping | Done.
Record task := Task { tk_node : bytes; tk_origin : nat; tk_stage : stage }.

(** [Idle]: before [run]; [Waiting root]: connecting to the root; [Watching]: in the loop of L111; [Ended]: returned. *)
Inductive phase := Idle | Waiting (root : bytes) | Watching | Ended.

(** [ds_queue], [ds_over]: announcements of the root not yet taken, and whether its session ended; [ds_gone]: origins
    withdrawn; [ds_links]: the sessions opened to other relays, and whether they live. *)
Record disco := Disco { ds_phase : phase; ds_queue : list (bytes * nat); ds_over : bool; ds_tasks : list task;
                        ds_gone : list nat; ds_links : list (bytes * bool) }.
Definition disco_new : disco := Disco Idle [] false [] [] [].

Inductive dop :=
| DStart                              (* the relay starts *)
| DRoot (ok : bool)                   (* connecting to the root ended *)
| DAnnounce (path : bytes) (b : nat)  (* the root announces *)
| DOver                               (* the session with the root ended *)
| DNext                               (* the loop is polled *)
| DPoll (i : nat)                     (* task [i] is polled *)
| DResult (i : nat) (ok : bool)       (* its attempt to connect ended *)
| DLost (j : nat)                     (* session [j] with another relay ended *)
| DWake (i : nat)                     (* its sleep is over *)
| DGone (b : nat).                    (* the root withdrew origin [b] *)

Inductive deffect :=
| EDialRoot (host : bytes)
| EAnnounce (path : bytes)            (* we announce ourselves to the root *)
| EDial (i : nat) (host : bytes)      (* task [i] connects *)
| EOpen (j : nat) (host : bytes)      (* session [j], over which all broadcasts are exchanged *)
| EEnded (i : nat)                    (* task [i] ended *)
| EReturn                             (* [run] returned *)
| EBad.                               (* not possible now *)

Definition with_task (s : disco) (i : nat) (t : task) : disco :=
  Disco (ds_phase s) (ds_queue s) (ds_over s) (set_nth i t (ds_tasks s)) (ds_gone s) (ds_links s).
Definition withdrawn (s : disco) (b : nat) : bool := existsb (Nat.eqb b) (ds_gone s).
Definition same_host (a : bytes) (b : option bytes) : bool := match b with Some b => str_eqb a b | None => false end.

(** One turn of the loop, L148-153, from its top: withdrawn, or a new attempt. *)
Definition turn (s : disco) (i : nat) (t : task) : disco * list deffect :=
  if withdrawn s (tk_origin t) then (with_task s i (Task (tk_node t) (tk_origin t) Done), [EEnded i])
  else (with_task s i (Task (tk_node t) (tk_origin t) Dialing), [EDial i (tk_node t)]).

Definition dstep (c : config) (s : disco) (o : dop) : disco * list deffect :=
  match o with
  | DStart =>
      match ds_phase s with
      | Idle =>
        match cf_connect c with                                                       (* L63-70 *)
        | Some root => if same_host root (cf_advertise c)
            then (Disco Ended (ds_queue s) (ds_over s) (ds_tasks s) (ds_gone s) (ds_links s), [EReturn])   (* L136-142 *)
            else (Disco (Waiting root) (ds_queue s) (ds_over s) (ds_tasks s) (ds_gone s) (ds_links s), [EDialRoot root])
        | None => (Disco Ended (ds_queue s) (ds_over s) (ds_tasks s) (ds_gone s) (ds_links s), [EReturn])
        end
      | _ => (s, [EBad])
      end
  | DRoot ok =>
      match ds_phase s with
      | Waiting _ =>
        if ok then                                                                    (* L94-106 *)
          (Disco Watching (ds_queue s) (ds_over s) (ds_tasks s) (ds_gone s) (ds_links s),
           match cf_advertise c with Some me => [EAnnounce (prefix_of c ++ ["/"%byte] ++ me)] | None => [] end)
        else (Disco Ended (ds_queue s) (ds_over s) (ds_tasks s) (ds_gone s) (ds_links s), [EReturn])  (* L87-92, the [?] *)
      | _ => (s, [EBad])
      end
  | DAnnounce p b =>
      match ds_phase s with
      | Watching =>
        if ds_over s then (s, [EBad]) else
        match strip_prefix (prefix_of c ++ ["/"%byte]) p with                         (* L106 *)
        | Some n => (Disco (ds_phase s) (ds_queue s ++ [(n, b)]) (ds_over s) (ds_tasks s) (ds_gone s) (ds_links s), [])
        | None => (s, [])
        end
      | _ => (s, [EBad])
      end
  | DOver =>
      match ds_phase s with
      | Watching => (Disco (ds_phase s) (ds_queue s) true (ds_tasks s) (ds_gone s) (ds_links s), [])
      | _ => (s, [EBad])
      end
  | DNext =>                                                                          (* L111-131, one iteration *)
      match ds_phase s with
      | Watching =>
        match ds_queue s with
        | [] => if ds_over s then (Disco Ended [] true (ds_tasks s) (ds_gone s) (ds_links s), [EReturn]) else (s, [])
        | (n, b) :: q =>
          if same_host n (cf_advertise c)
          then (Disco Watching q (ds_over s) (ds_tasks s) (ds_gone s) (ds_links s), [])
          else (Disco Watching q (ds_over s) (ds_tasks s ++ [Task n b Ready]) (ds_gone s) (ds_links s), [])
        end
      | _ => (s, [EBad])
      end
  | DPoll i =>
      match nth_error (ds_tasks s) i with
      | Some t =>
        match tk_stage t with
        | Ready => turn s i t
        | Dialing | Live _ =>                                                         (* L151 *)
            if withdrawn s (tk_origin t) then (with_task s i (Task (tk_node t) (tk_origin t) Done), [EEnded i]) else (s, [])
        | Sleeping | Done => (s, [])
        end
      | None => (s, [EBad])
      end
  | DResult i ok =>
      match nth_error (ds_tasks s) i with
      | Some t =>
        match tk_stage t with
        | Dialing =>
          if withdrawn s (tk_origin t) then (with_task s i (Task (tk_node t) (tk_origin t) Done), [EEnded i])
          else if ok then                                                             (* L169-185 *)
            let j := length (ds_links s) in
            let s := with_task s i (Task (tk_node t) (tk_origin t) (Live j)) in
            (Disco (ds_phase s) (ds_queue s) (ds_over s) (ds_tasks s) (ds_gone s) (ds_links s ++ [(tk_node t, true)]), [EOpen j (tk_node t)])
          else (with_task s i (Task (tk_node t) (tk_origin t) Sleeping), [])          (* L155-161 *)
        | _ => (s, [EBad])
        end
      | None => (s, [EBad])
      end
  | DLost j =>
      match nth_error (ds_links s) j with
      | Some (h, true) =>
        (* the task whose session it is, if any, goes to sleep: L187, L155-161; or ends, L151 *)
        let f t := match tk_stage t with
          | Live k => if Nat.eqb k j then Task (tk_node t) (tk_origin t) (if withdrawn s (tk_origin t) then Done else Sleeping) else t
          | _ => t end in
        (Disco (ds_phase s) (ds_queue s) (ds_over s) (map f (ds_tasks s)) (ds_gone s) (set_nth j (h, false) (ds_links s)), [])
      | _ => (s, [EBad])
      end
  | DWake i =>
      match nth_error (ds_tasks s) i with
      | Some t => match tk_stage t with Sleeping => turn s i t | _ => (s, [EBad]) end
      | None => (s, [EBad])
      end
  | DGone b => (Disco (ds_phase s) (ds_queue s) (ds_over s) (ds_tasks s) (b :: ds_gone s) (ds_links s), [])
  end.

Fixpoint drun (c : config) (s : disco) (ops : list dop) : disco * list (dop * list deffect) :=
  match ops with
  | [] => (s, [])
  | o :: ops => let (s, x) := dstep c s o in let (s, tr) := drun c s ops in (s, (o, x) :: tr)
  end.
