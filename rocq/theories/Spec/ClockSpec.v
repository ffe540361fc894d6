(** What a clock should show. *)
From Coq Require Import NArith List Bool Sorted.
From Coq Require Import Init.Byte Strings.Byte.
From Verif.Model Require Import Base Clock.
Import ListNotations.
Open Scope N_scope.

Section WithText.
  (** The text of every minute. *)
  Context (text : N -> bytes).

  (** The line [l] is the time [t]: the text of its minute and two digits for the second. *)
  Definition reads (l : bytes) (t : N) : Prop :=
    exists a b x y, l = text (t / 60000000000) ++ [x; y] /\ to_N x = 48 + a /\ to_N y = 48 + b /\ a < 10 /\ b < 10 /\ 10 * a + b = t / 1000000000 mod 60.
  Definition distinct : Prop := forall a b, text a = text b -> a = b.
End WithText.

Definition hour : N := 3600000000000.

(** The system clock was never set. *)
Definition steady (tr : list kevent) : Prop := forall w t x, ~ In (KAdjust w, t, x) tr.

(** The first line of group [g], and the others, published when the system clock said [t]. *)
Definition first_line (tr : list kevent) (g : nat) (l : bytes) (t : N) : Prop :=
  exists op b d, In (op, t, KWrote g [b; d]) tr /\ l = b ++ d.
Definition next_line (tr : list kevent) (g : nat) (l : bytes) (t : N) : Prop :=
  exists op op0 b d d0 t0, In (op0, t0, KWrote g [b; d0]) tr /\ In (op, t, KWrote g [d]) tr /\ l = b ++ d.

(** How long after the ends of their sleeps the groups were created, in all, up to group [g]. *)
Definition delays (tr : list kevent) (g : nat) : N :=
  fold_right N.add 0 (map (fun e : kevent => match snd e with KMade g1 late => if Nat.leb g1 g then late else 0 | _ => 0 end) tr).

(** What the subscriber prints. *)
Definition printed (tr : list kevent) : list bytes :=
  concat (map (fun e : kevent => match snd e with KPrinted l => [l] | _ => [] end) tr).

(** The lines are times going forward, second by second or faster. *)
Definition forward (text : N -> bytes) (ls : list bytes) : Prop :=
  exists us, Forall2 (reads text) ls us /\ StronglySorted (fun a b => a / 1000000000 < b / 1000000000) us.
