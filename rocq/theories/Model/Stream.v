(** rs/moq/src/session/reader.rs and writer.rs over the transport's byte streams. *)
From Coq Require Import NArith List.
From Coq Require Import Init.Byte Strings.Byte.
From Verif.Model Require Import Base Coding ErrorCode.
Import ListNotations.

(** Result of awaiting: ready with a value, failed, or still waiting.  [AFuel] marks exhausted loop
    fuel and is proved unreachable. *)
Inductive await (A : Type) := AOk (a : A) | AErr (e : error) | APending | AFuel.
Arguments AOk {A} a.
Arguments AErr {A} e.
Arguments APending {A}.
Arguments AFuel {A}.

(** * Receiving *)

(** How the incoming stream goes on after the chunks that have arrived: finished by the peer,
    reset / connection lost, or nothing more so far. *)
Inductive ending := Fin | Reset | Open.

(** web_transport::RecvStream (external): the pieces successive reads will return. *)
Record recv := Recv { rc_chunks : list bytes; rc_end : ending }.

(** reader.rs:7-10 *)
Record reader := Reader { rd_buf : bytes; rd_stream : recv }.

(** What a read of an exhausted stream gives; [None] is the clean end. *)
Definition at_end {A} (e : ending) (fin : A) : await A :=
  match e with Fin => AOk fin | Reset => AErr WebTransport | Open => APending end.

(** RecvStream::read_buf (external): appends the next piece. [AOk false] is [None]. *)
Definition read_buf (r : reader) : await bool * reader :=
  match rc_chunks (rd_stream r) with
  | c :: cs => (AOk true, Reader (rd_buf r ++ c) (Recv cs (rc_end (rd_stream r))))
  | [] => (at_end (rc_end (rd_stream r)) false, r)
  end.

Definition take (n : N) (bs : bytes) : bytes := firstn (N.to_nat (N.min n (len bs))) bs.
Definition drop (n : N) (bs : bytes) : bytes := skipn (N.to_nat (N.min n (len bs))) bs.

(** RecvStream::read (external): at most [max] bytes of the next piece, the rest stays. *)
Definition stream_read (max : N) (r : reader) : await (option bytes) * reader :=
  match rc_chunks (rd_stream r) with
  | c :: cs =>
      let rest := drop max c in
      (AOk (Some (take max c)),
       Reader (rd_buf r) (Recv (match rest with [] => cs | _ => rest :: cs end) (rc_end (rd_stream r))))
  | [] => (at_end (rc_end (rd_stream r)) None, r)
  end.

(** reader.rs:25-47 [decode]: retry on [Short] with one more piece.  The loop runs down the list of
    pieces. *)
Fixpoint decode_with {A} (dec : decoder A) (buf : bytes) (cs : list bytes) (e : ending)
  : await A * reader :=
  match dec buf with
  | DOk m rest => (AOk m, Reader rest (Recv cs e))                       (* 31-34 *)
  | DErr Short =>                                                        (* 35 *)
      match cs with
      | c :: cs => decode_with dec (buf ++ c) cs e                       (* 43 *)
      | [] => (match e with
               | Fin => AErr (Decode Short)                              (* 44 *)
               | Reset => AErr WebTransport
               | Open => APending
               end, Reader buf (Recv [] e))
      end
  | DErr err => (AErr (Decode err), Reader buf (Recv cs e))              (* 36 *)
  | DFuel => (AFuel, Reader buf (Recv cs e))
  end.

Definition reader_decode {A} (dec : decoder A) (r : reader) : await A * reader :=
  decode_with dec (rd_buf r) (rc_chunks (rd_stream r)) (rc_end (rd_stream r)).

(** reader.rs:70-76 *)
Definition reader_finished (r : reader) : await unit * reader :=
  match rd_buf r with
  | _ :: _ => (AErr (Decode ExpectedEnd), r)
  | [] =>
    let (x, r') := read_buf r in
    (match x with
     | AOk false => AOk tt
     | AOk true => AErr (Decode ExpectedEnd)
     | AErr e => AErr e | APending => APending | AFuel => AFuel
     end, r')
  end.

(** reader.rs:50-56 *)
Definition reader_decode_maybe {A} (dec : decoder A) (r : reader) : await (option A) * reader :=
  let (x, r) := reader_finished r in
  match x with
  | AOk _ => (AOk None, r)
  | AErr (Decode ExpectedEnd) =>
      let (y, r) := reader_decode dec r in
      (match y with AOk a => AOk (Some a) | AErr e => AErr e | APending => APending | AFuel => AFuel end, r)
  | AErr e => (AErr e, r)
  | APending => (APending, r)
  | AFuel => (AFuel, r)
  end.

(** reader.rs:59-67 *)
Definition reader_read (max : N) (r : reader) : await (option bytes) * reader :=
  match rd_buf r with
  | [] => stream_read max r
  | buf => (AOk (Some (take max buf)), Reader (drop max buf) (rd_stream r))
  end.

(** * Sending *)

(** One low-level write: how many bytes the transport takes, or that it fails. *)
Inductive accept := Acc (n : nat) | WFail.

(** web_transport::SendStream (external): bytes taken so far and what the coming writes will do; an
    exhausted schedule is a write that never completes. *)
Record send := Send { sd_sent : bytes; sd_sched : list accept }.

(** The write loop of writer.rs:32-34, also that of the external [SendStream::write] (which writes
    all of its argument). *)
Fixpoint push (buf sent : bytes) (sched : list accept) : await unit * send :=
  match buf with
  | [] => (AOk tt, Send sent sched)
  | _ => match sched with
         | [] => (APending, Send sent [])
         | WFail :: s => (AErr WebTransport, Send sent s)
         | Acc n :: s => push (skipn n buf) (sent ++ firstn n buf) s
         end
  end.

(** writer.rs:28-37 [encode]: the buffer is cleared, filled by the message and drained. *)
Definition writer_encode {A} (enc : encoder A) (m : A) (s : send) : res (await unit * send) :=
  match enc m with
  | Val ps => Val (push (wire ps) (sd_sent s) (sd_sched s))
  | Panic => Panic
  end.

(** writer.rs:39-42 [write] *)
Definition writer_write (bs : bytes) (s : send) : await unit * send :=
  push bs (sd_sent s) (sd_sched s).
