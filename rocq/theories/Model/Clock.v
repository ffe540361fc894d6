(** The clock program (rs/moq-clock/src/clock.rs): a track of the current time. *)
From Coq Require Import NArith List Bool.
From Coq Require Import Init.Byte Strings.Byte.
From Verif.Model Require Import Base.
Import ListNotations.
Open Scope N_scope.

(** Times are nanoseconds since the epoch.  (chrono: without leap seconds, and far from the ends of its range.) *)
Definition second : N := 1000000000.
Definition minute : N := 60000000000.
(** chrono [Timelike::minute]. *)
Definition minute_of (t : N) : N := (t / minute) mod 60.
(** clock.rs:33-34: [now + 1 minute], seconds and nanoseconds set to zero. *)
Definition next_minute (t : N) : N := (t + minute) / minute * minute.
(** clock.rs:53-54: [now + 1 second], nanoseconds set to zero. *)
Definition next_second (t : N) : N := (t + second) / second * second.

Definition digit (n : N) : byte := match Byte.of_N (48 + n) with Some b => b | None => x00 end.
(** chrono's "%S". *)
Definition delta_of (t : N) : bytes := let s := (t / second) mod 60 in [digit (s / 10); digit (s mod 10)].

(** clock.rs:43-71: a group and the task writing it.  [sg_wake] is when its sleep ends, once it has started. *)
Record segment := Seg { sg_seq : N; sg_now : N; sg_wake : option N; sg_frames : list bytes; sg_done : bool }.

(** clock.rs:15-41: [run] has not been polled, sleeps, or has panicked. *)
Inductive task := TIdle | TSleep (next wake seq : N) | TDead.

(** clock.rs:82-99: a subscriber in the same program: waits for a group (after the sequence it had), for its first
    frame, or for further frames; or has returned.  (What comes between, over a session, is Net.) *)
Inductive reader := RWait (prev : option N) | RBase (prev : N) (g : nat) | RLines (prev : N) (g i : nat) (base : bytes) | RDone.

Record clock := Clock { ck_mono : N; ck_wall : N; ck_run : task; ck_segs : list segment; ck_reader : reader }.
(** [w]: what the system clock says at first. *)
Definition clock_new (w : N) : clock := Clock 0 w TIdle [] (RWait None).

(** Time passes; the system clock is set; the publisher's [run] is polled; the task of a group is polled; the
    subscriber is polled.  No time passes during a poll. *)
Inductive kop := KPass (d : N) | KAdjust (w : N) | KRun | KSend (g : nat) | KRead.
Inductive kout :=
| KNothing | KPanic
| KMade (g : nat) (late : N) (** a group was created; so long after the end of the sleep *)
| KWrote (g : nat) (fs : list bytes)
| KEnded (g : nat)
| KPrinted (line : bytes)
| KFailed. (** the subscriber returns an error *)

Definition put {A} (n : nat) (x : A) (l : list A) : list A := firstn n l ++ x :: skipn (S n) l.

Section WithText.
  (** chrono's "%Y-%m-%d %H:%M:" of a minute, as ASCII. *)
  Context (text : N -> bytes).

  (** One turn of the loop, clock.rs:22-40.  ([sequence] is an u32 in the code: it lasts for 8000 years.) *)
  Definition turn (s : clock) (now seq late : N) : clock * kout :=
    (* moq/src/model/track.rs:65-88 *)
    let fresh := match rev (ck_segs s) with latest :: _ => sg_seq latest <? seq | [] => true end in
    if fresh then
      let next := next_minute now in
      (Clock (ck_mono s) (ck_wall s) (TSleep next (ck_mono s + (next - now)) (seq + 1))
             (ck_segs s ++ [Seg seq now None [] false]) (ck_reader s), KMade (length (ck_segs s)) late)
    else (Clock (ck_mono s) (ck_wall s) TDead (ck_segs s) (ck_reader s), KPanic).

  (** clock.rs:43-71. *)
  Definition send (s : clock) (g : nat) (x : segment) : clock * kout :=
    let upd y := Clock (ck_mono s) (ck_wall s) (ck_run s) (put g y (ck_segs s)) (ck_reader s) in
    if sg_done x then (s, KNothing) else
    match sg_wake x with
    | None =>
        let fs := [text (sg_now x / minute); delta_of (sg_now x)] in
        (upd (Seg (sg_seq x) (sg_now x) (Some (ck_mono s + (next_second (sg_now x) - sg_now x))) (sg_frames x ++ fs) false), KWrote g fs)
    | Some w =>
        if ck_mono s <? w then (s, KNothing) else
        let next := ck_wall s in
        if minute_of next =? minute_of (sg_now x) then
          let fs := [delta_of next] in
          (upd (Seg (sg_seq x) next (Some (ck_mono s + (next_second next - next))) (sg_frames x ++ fs) false), KWrote g fs)
        else (upd (Seg (sg_seq x) (sg_now x) (Some w) (sg_frames x) true), KEnded g)
    end.

  (** clock.rs:82-99, moq/src/model/track.rs:153-178, group.rs:169-215 (the frames are whole). *)
  Definition look (s : clock) : clock * kout :=
    let upd r := Clock (ck_mono s) (ck_wall s) (ck_run s) (ck_segs s) r in
    match ck_reader s with
    | RDone => (s, KNothing)
    | RWait prev =>
        match rev (ck_segs s) with
        | [] => (s, KNothing)
        | latest :: _ =>
            if match prev with Some q => q <? sg_seq latest | None => true end
            then (upd (RBase (sg_seq latest) (length (ck_segs s) - 1)), KNothing) else (s, KNothing)
        end
    | RBase q g =>
        match nth_error (ck_segs s) g with
        | None => (s, KNothing)
        | Some x =>
            match sg_frames x with
            | f :: _ => (upd (RLines q g 1 f), KNothing)
            | [] => if sg_done x then (upd RDone, KFailed) else (s, KNothing)
            end
        end
    | RLines q g i base =>
        match nth_error (ck_segs s) g with
        | None => (s, KNothing)
        | Some x =>
            match nth_error (sg_frames x) i with
            | Some f => (upd (RLines q g (S i) base), KPrinted (base ++ f))
            | None => if sg_done x then (upd (RWait (Some q)), KNothing) else (s, KNothing)
            end
        end
    end.

  Definition kstep (s : clock) (op : kop) : clock * kout :=
    match op with
    | KPass d => (Clock (ck_mono s + d) (ck_wall s + d) (ck_run s) (ck_segs s) (ck_reader s), KNothing)
    | KAdjust w => (Clock (ck_mono s) w (ck_run s) (ck_segs s) (ck_reader s), KNothing)
    | KRun =>
        match ck_run s with
        | TIdle => turn s (ck_wall s) (minute_of (ck_wall s)) 0 (* clock.rs:16-20 *)
        | TSleep next wake seq => if ck_mono s <? wake then (s, KNothing) else turn s next seq (ck_mono s - wake) (* clock.rs:36-39 *)
        | TDead => (s, KNothing)
        end
    | KSend g => match nth_error (ck_segs s) g with Some x => send s g x | None => (s, KNothing) end
    | KRead => look s
    end.

  (** Every operation with what the system clock said at the time. *)
  Definition kevent : Type := kop * N * kout.
  Fixpoint krun (s : clock) (ops : list kop) : clock * list kevent :=
    match ops with
    | [] => (s, [])
    | op :: rest => let '(s1, x) := kstep s op in let '(s2, tr) := krun s1 rest in (s2, (op, ck_wall s, x) :: tr)
    end.
End WithText.
