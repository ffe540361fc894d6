(** What the relay's operator and users rely on. *)
From Coq Require Import NArith ZArith List Bool.
From Coq Require Import Init.Byte Strings.Byte.
From Verif.Model Require Import Base Map Auth.
Import ListNotations.

Definition starts (pre s : bytes) : Prop := exists r, s = pre ++ r.
Definition ends (suf s : bytes) : Prop := exists r, s = r ++ suf.

(** [url_path] is some slashes followed by [p], which does not begin with one. *)
Definition trimmed (url_path p : bytes) : Prop :=
  exists n, url_path = repeat slash n ++ p /\ ~ starts [slash] p.

(** [p] is [dir]/[last] with the slash being the last one; without any slash [dir] is empty. *)
Definition dir_last (p dir last : bytes) : Prop :=
  (p = dir ++ slash :: last /\ ~ In slash last) \/ (dir = [] /\ last = p /\ ~ In slash p).

(** The key (or none) configured for [dir]: its own, or else the root key. *)
Definition guarding (a : auth) (dir : bytes) (k : option key) : Prop :=
  lookup dir (au_paths a) = Some k \/ (lookup dir (au_paths a) = None /\ k = au_key a).

Definition permits (k : key) (o : operation) : Prop := In o (k_ops k).

(** [token] is accepted under key [k] and carries [t]. *)
Definition accepted (j : jwt) (k : key) (token : bytes) (t : payload) : Prop :=
  permits k OpVerify /\ jwt_decode j (k_alg k) (k_secret k) token = Some t.

(** The token [t] moved below [dir]. *)
Definition moved (dir : bytes) (t p : payload) : Prop :=
  pl_path p = dir ++ pl_path t /\ pl_publish p = pl_publish t /\ pl_force p = pl_force t /\
  pl_subscribe p = pl_subscribe t /\ pl_expires p = pl_expires t /\ pl_issued p = pl_issued t.
(** Everything below [root]. *)
Definition all_below (root : bytes) (p : payload) : Prop :=
  pl_path p = root /\ pl_publish p = Some [] /\ pl_subscribe p = Some [] /\ pl_force p = None /\
  pl_expires p = None /\ pl_issued p = None.

(** The broadcasts a session with [p] can subscribe to or publish (connection.rs: see C51). *)
Definition reaches (p : payload) (x : bytes) : Prop :=
  (exists scope, (pl_publish p = Some scope \/ pl_subscribe p = Some scope) /\ starts (pl_path p ++ scope) x) \/
  (exists f, pl_force p = Some f /\ x = pl_path p ++ f).
(** [x] is [dir] itself or lies below it. *)
Definition below (dir x : bytes) : Prop := x = dir \/ starts (dir ++ [slash]) x.

(** A decimal number without redundancy: the value of its digits. *)
Definition decimal (ds : list N) : N := fold_left (fun a d => a * 10 + d)%N ds 0%N.
Definition ascii_digits (ds : list N) : bytes := map (fun d => u8 (48 + d)) ds.
Definition is_digits (ds : list N) : Prop := ds <> [] /\ Forall (fun d => d < 10)%N ds.
