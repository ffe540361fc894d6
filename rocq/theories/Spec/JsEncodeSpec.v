(** What the encoding of a web page is to give. *)
From Coq Require Import Arith List Bool.
From Verif.Model Require Import JsEncode.
Import ListNotations.

Notation clog := (list cev).

Fixpoint media (l : clog) : nat := match l with [] => 0 | IMedia true :: l => S (media l) | _ :: l => media l end.
Fixpoint given (l : clog) : nat := match l with [] => 0 | IOut _ :: l => S (given l) | _ :: l => given l end.
Fixpoint written (l : clog) : nat := match l with [] => 0 | OFrame _ _ :: l => S (written l) | _ :: l => written l end.

(** A medium is being read: it gave a first frame, and was neither replaced nor ended *)
Definition reading (l : clog) : bool := fold_left (fun x e => match e with IFirst => true | IMedia _ | IEof => false | _ => x end) l false.
Definition active (l : clog) : bool := fold_left (fun x e => match e with OActive b => b | _ => x end) l false.
Definition conf (l : clog) : option nat := fold_left (fun x e => match e with OConf c => c | _ => x end) l None.

(** The groups: how many were made and for how many media, and which one is open: not yet with a frame, with a key frame, or to be ended since the medium was changed *)
Inductive gstate := GNone | GEmpty (g : nat) | GOpen (g : nat) | GDone (g : nat).
Definition track_step (x : option (nat * nat * gstate)) (e : cev) : option (nat * nat * gstate) :=
  match x with
  | None => None
  | Some (m, n, st) =>
    match e with
    | IMedia on => Some ((if on then S m else m), n, match st with GNone => GNone | GEmpty g | GOpen g | GDone g => GDone g end)
    | OGroup g i => match st with GNone => if (g =? n) && (i =? m) then Some (m, S n, GEmpty g) else None | _ => None end
    | OFrame g key =>
      match st with
      | GEmpty h => if (g =? h) && key then Some (m, n, GOpen g) else None
      | GOpen h => if (g =? h) && negb key then Some (m, n, st) else None
      | _ => None
      end
    | OEnd g => match st with GEmpty h | GOpen h | GDone h => if g =? h then Some (m, n, GNone) else None | GNone => None end
    | _ => x
    end
  end.
Definition well_grouped (l : clog) : Prop := fold_left track_step l (Some (0, 0, GNone)) <> None.

(** No medium was changed while a configuration was being chosen *)
Definition choosing (l : clog) : bool := fold_left (fun x e => match e with IFirst => true | IChosen _ => false | _ => x end) l false.
Definition patient (l : clog) : Prop := forall a on b, l = a ++ IMedia on :: b -> choosing a = false.

(** While a medium is being read, no configuration is found for an earlier one *)
Definition settled (l : clog) : Prop := forall a i b, l = a ++ IChosen i :: b -> reading a = true -> i = media a.
