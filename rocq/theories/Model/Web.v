(** The relay's HTTP interface (rs/moq-relay/src/web.rs).  Routing, percent-decoding and CORS (axum),
    the certificate page and the transport of the response are not modelled. *)
From Coq Require Import NArith List Bool.
From Coq Require Import Init.Byte Strings.Byte.
From Verif.Model Require Import Base ErrorCode Stream Frame FrameSys GroupSys Map OriginSys Text.
Import ListNotations.
Open Scope nat_scope.

Definition slash : byte := x2f.

(** web.rs:98-104: [split("/")], [pop], [join("/")]; [None]: BAD_REQUEST *)
Definition fetch_path (path : bytes) : option (bytes * bytes) :=
  let parts := split slash path in
  if Nat.ltb (length parts) 2 then None
  else match rev parts with
       | track :: rest => Some (join slash (rev rest), track)
       | [] => None
       end.

(** web.rs:97-123 [serve_fetch] up to the response: what the look-up and [next_group] yield is given. *)
Inductive status := BadRequest | NotFound | InternalError.
Definition serve_fetch {B G : Type} (get : bytes -> option B) (next_group : B -> bytes -> option G + error) (path : bytes) : G + status :=
  match fetch_path path with
  | None => inr BadRequest
  | Some (broadcast, track) =>
      match get broadcast with
      | None => inr NotFound                                             (* 113 *)
      | Some b => match next_group b track with                          (* 114-120 *)
                  | inl (Some g) => inl g
                  | inl None => inr NotFound
                  | inr _ => inr InternalError
                  end
      end
  end.

(** web.rs:79-94 [serve_announced]: what the two consumers yielded, joined by newlines. *)
Definition newline : byte := x0a.
Definition announced_page (local remote : list (bytes * nat)) : bytes := join newline (map fst local ++ map fst remote).

(** web.rs:125-128 [ServeGroup]: the group consumer is consumer 0 of the group; [bd_frame]. *)
Definition body : Type := option entry.

(** What a future waits for: a change of the group's or of a frame's watch channel. *)
Inductive place := AtGroup | AtFrame (f : nat).
Definition place_eqb (a b : place) : bool :=
  match a, b with AtGroup, AtGroup => true | AtFrame f, AtFrame g => Nat.eqb f g | _, _ => false end.

(** web.rs:135-149 [next], one poll.  The third component: where the waker is registered. *)
Definition serve_frame (heap : list fsys) (f i : nat) : res (await (option bytes) * body * list place) :=
  match nth_error heap f with
  | None => Panic
  | Some fs =>
      match frame_read_all (fsys_alive fs) i (sy_state fs) with           (* 138 *)
      | Panic => Panic
      | Val (AOk d, _) => Val (AOk (Some d), None, [])                    (* 139-140 *)
      | Val (AErr e, i) => Val (AErr e, Some (f, i), [])
      | Val (APending, i) => Val (APending, Some (f, i), [AtFrame f])
      | Val (AFuel, i) => Val (AFuel, Some (f, i), [])
      end
  end.
Definition serve_next (alive : bool) (heap : list fsys) (frames : list entry) (closed : option outcome) (g : gcons) (b : body)
  : res (await (option bytes) * gcons * body * list place) :=
  match b with
  | Some (f, i) =>                                                        (* 137-141 *)
      match serve_frame heap f i with Panic => Panic | Val (a, b, r) => Val (a, g, b, r) end
  | None =>
      let (a, g) := group_next alive frames closed g in                   (* 143 *)
      match a with
      | AOk (Some (f, i)) =>                                              (* next round of the loop *)
          match serve_frame heap f i with Panic => Panic | Val (a, b, r) => Val (a, g, b, r) end
      | AOk None => Val (AOk None, g, None, [])                           (* 144-146 *)
      | AErr e => Val (AErr e, g, None, [])
      | APending => Val (APending, g, None, [AtGroup])
      | AFuel => Val (AFuel, g, None, [])
      end
  end.

(** A group, the response for it, and the wakers registered by the response's pending futures. *)
Record wsys := WSys { ws_group : gsys; ws_body : body; ws_wakers : list place }.
(** The group consumer [next_group] gave. *)
Definition web_new (w : N) : wsys := WSys (fst (gstep w gsys_new (GConsume 0))) None [].

Inductive wop :=
| WOther (o : gop)    (* anything else that happens to the group and its frames *)
| WPoll.              (* [poll_frame] *)
(** [WDid x woken]: whether the task of the response was woken. *)
Inductive wout := WDid (x : gout) (woken : bool) | WPolled (a : await (option bytes)) | WPanic | WBad.

(** The channels an operation notifies: [send_modify], and the drop of the last sender. *)
Definition notified (s : gsys) (o : gop) (s' : gsys) (x : gout) : list place :=
  match o, x with
  | GAppend _ _ _, GAppended _ | GFinish _, GUnit | GAbort _ _, GUnit => [AtGroup]
  | GDrop _, GUnit | GUnusedDrop, GUnit => if gsys_alive s' then [] else [AtGroup]
  | GFrame f (FWrite _ _), GFrameOut FUnit | GFrame f (FFinish _), GFrameOut FUnit | GFrame f (FAbort _ _), GFrameOut FUnit => [AtFrame f]
  | GFrame f (FDrop _), GFrameOut FUnit | GFrame f FUnusedDrop, GFrameOut FUnit | GFrame f (FFinish _), GFrameOut FPanic =>
      match nth_error (gs_heap s') f with Some fs => if fsys_alive fs then [] else [AtFrame f] | None => [] end
  | _, _ => []
  end.
Definition mem (p : place) (l : list place) : bool := existsb (place_eqb p) l.

(** The response's consumer is nobody else's. *)
Definition foreign (o : gop) : bool :=
  match o with GNext c | GRead c | GCClone c | GCDrop c => negb (Nat.eqb c 0) | _ => true end.

(** web.rs:161-179 [poll_frame]: the future made in line 168 is dropped when [poll_frame] returns, and
    with it (tokio's [Notified]) the registration of its waker. *)
Definition drop_future (before registered : list place) : list place := before.

Definition wstep (w : N) (s : wsys) (o : wop) : wsys * wout :=
  match o with
  | WOther o =>
      if foreign o then
        let (g, x) := gstep w (ws_group s) o in
        let n := notified (ws_group s) o g x in
        (WSys g (ws_body s) (filter (fun p => negb (mem p n)) (ws_wakers s)), WDid x (existsb (fun p => mem p n) (ws_wakers s)))
      else (s, WBad)
  | WPoll =>
      match get (gs_cons (ws_group s)) 0 with
      | None => (s, WBad)
      | Some g =>
          match serve_next (gsys_alive (ws_group s)) (gs_heap (ws_group s)) (gs_frames (ws_group s)) (gs_closed (ws_group s)) g (ws_body s) with
          | Panic => (s, WPanic)
          | Val (a, g, b, r) =>
              (WSys (gwith_cons (ws_group s) (set_nth 0 (Some g) (gs_cons (ws_group s)))) b (drop_future (ws_wakers s) (ws_wakers s ++ r)), WPolled a)
          end
      end
  end.
Fixpoint wrun (w : N) (s : wsys) (ops : list wop) : wsys * list (wop * wout) :=
  match ops with
  | [] => (s, [])
  | o :: ops => let (s1, x) := wstep w s o in let (s2, tr) := wrun w s1 ops in (s2, (o, x) :: tr)
  end.
