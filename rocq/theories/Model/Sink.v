(** The GStreamer sink (rs/hang-gst/src/sink/imp.rs): publishes the movie it is fed. *)
From Coq Require Import NArith List Bool.
From Coq Require Import Init.Byte Strings.Byte.
From Verif.Model Require Import Base Import.
Import ListNotations.

(** imp.rs:22-36.  A mutex is poisoned once a panic happened while it was locked.  [sk_panicked]: gstreamer-rs catches a
    panic of [start], [stop] and [render], and from then on answers these with an error without calling them.  It does
    not catch panics of [set_property] and [property]: they abort the program.  [sk_casts]: what was published at each
    successful start, in order; [sk_media] is whether the last one is still being written. *)
Record sink := Sink { sk_url : option bytes; sk_insecure : bool; sk_settings_poisoned : bool; sk_media : bool;
                      sk_state_poisoned : bool; sk_panicked : bool; sk_aborted : bool; sk_casts : list imp }.
Definition sink_new : sink := Sink None false false false false false false [].

(** How setup goes: the URL is no URL; the client cannot be made; no connection; no session; a session. *)
Inductive setup := UInvalid | UInit | UConnect | USession | UReady.
(** [KRender None]: the buffer cannot be mapped. *)
Inductive skop := KUrl (u : option bytes) | KInsecure (b : bool) | KGet | KStart (u : setup) | KStop | KRender (d : option bytes).
Inductive skout := KOk | KErr (** an error *) | KPosted (** a panic, or one before *) | KAborted.

Definition sk_abort (s : sink) : sink * skout :=
  (Sink (sk_url s) (sk_insecure s) (sk_settings_poisoned s) (sk_media s) (sk_state_poisoned s) (sk_panicked s) true (sk_casts s), KAborted).
(** A panic while the settings, or the state, are locked. *)
Definition settings_panic (s : sink) : sink * skout :=
  (Sink (sk_url s) (sk_insecure s) true (sk_media s) (sk_state_poisoned s) true (sk_aborted s) (sk_casts s), KPosted).
Definition state_panic (s : sink) (l : list imp) : sink * skout :=
  (Sink (sk_url s) (sk_insecure s) (sk_settings_poisoned s) false true true (sk_aborted s) l, KPosted).

Section WithDecoder.
  Context (dec : decoder) (m : mode) (w : N).

  (** imp.rs:147-177.  [settings] stays locked to the end. *)
  Definition sk_setup (s : sink) (u : setup) : sink * skout :=
    if sk_settings_poisoned s then settings_panic s else
    match sk_url s with
    | None => settings_panic s
    | Some _ =>
        match u with
        | UInvalid | UInit => (s, KErr)
        | UConnect | USession => settings_panic s
        | UReady =>
            if sk_state_poisoned s then settings_panic s else
            (Sink (sk_url s) (sk_insecure s) (sk_settings_poisoned s) true (sk_state_poisoned s) (sk_panicked s) (sk_aborted s) (sk_casts s ++ [imp_new]), KOk)
        end
    end.

  (** imp.rs:131-143. *)
  Definition sk_render (s : sink) (d : option bytes) : sink * skout :=
    match d with
    | None => (s, KErr)
    | Some data =>
        if sk_state_poisoned s then state_panic s (sk_casts s) else
        match sk_media s, rev (sk_casts s) with
        | true, i :: before =>
            match parse dec m w data i with
            | (i, POk _) => (Sink (sk_url s) (sk_insecure s) (sk_settings_poisoned s) true (sk_state_poisoned s) (sk_panicked s) (sk_aborted s) (rev (i :: before)), KOk)
            | (i, _) => state_panic s (rev (i :: before))
            end
        | _, _ => state_panic s (sk_casts s)
        end
    end.

  Definition skstep (s : sink) (op : skop) : sink * skout :=
    if sk_aborted s then (s, KAborted) else
    match op with
    (* imp.rs:68-76 *)
    | KUrl u => if sk_settings_poisoned s then sk_abort s else
        (Sink u (sk_insecure s) (sk_settings_poisoned s) (sk_media s) (sk_state_poisoned s) (sk_panicked s) (sk_aborted s) (sk_casts s), KOk)
    | KInsecure b => if sk_settings_poisoned s then sk_abort s else
        (Sink (sk_url s) b (sk_settings_poisoned s) (sk_media s) (sk_state_poisoned s) (sk_panicked s) (sk_aborted s) (sk_casts s), KOk)
    (* imp.rs:78-86 *)
    | KGet => if sk_settings_poisoned s then sk_abort s else (s, KOk)
    (* imp.rs:121-125 *)
    | KStart u => if sk_panicked s then (s, KPosted) else sk_setup s u
    (* imp.rs:127-129 *)
    | KStop => if sk_panicked s then (s, KPosted) else (s, KOk)
    | KRender d => if sk_panicked s then (s, KPosted) else sk_render s d
    end.

  Fixpoint skrun (s : sink) (ops : list skop) : sink * list (skop * skout) :=
    match ops with
    | [] => (s, [])
    | op :: rest => let '(s1, x) := skstep s op in let '(s2, tr) := skrun s1 rest in (s2, (op, x) :: tr)
    end.
End WithDecoder.
