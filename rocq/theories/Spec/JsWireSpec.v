(** What it means for the JavaScript and the Rust library to understand each other. *)
From Coq Require Import NArith ZArith List Bool.
From Coq Require Import Init.Byte Strings.Byte.
From Verif.Model Require Import Base Coding Message Stream Frame Transfer JsWire.
From Verif.Spec Require Import CodingSpec MessageSpec StreamSpec TransferSpec.
Import ListNotations.
Open Scope N_scope.

(** Integers a JavaScript [number] holds exactly. *)
Definition safe (n : N) : Prop := n < 2 ^ 53.
(** Text without a byte order mark in front. *)
Definition plain (s : bytes) : Prop := forall rest, s <> xef :: xbb :: xbf :: rest.
(** Text that reaches a JavaScript reader unchanged. *)
Definition plain_text (s : bytes) : Prop := plain s /\ safe (N.of_nat (length s)).

(** [jd] resolves to [a], consuming exactly the bytes in front of [rest], however they were cut into pieces. *)
Definition gets {A} (jd : js A) (r : reader) (a : A) (rest : bytes) : Prop :=
  exists r', jd r = (JOk a, r') /\ content r' = rest /\ ends r' = ends r.

(** Whatever a Rust endpoint writes for a message of kind [k] that satisfies [ok], the JavaScript reader [jd] gets [view] of it. *)
Definition hears {A} (jd : js A) (k : kind) (ok : payload k -> Prop) (view : payload k -> A) : Prop :=
  forall m ps r rest, encode_kind k m = Val ps -> ok m -> content r = wire ps ++ rest -> gets jd r (view m) rest.

(** Whatever a JavaScript endpoint writes for a value [a] that satisfies [ok], the Rust decoder gets [view a]. *)
Definition heard {A} (w : N) (jw : A -> jput) (k : kind) (ok : A -> Prop) (view : A -> payload k) : Prop :=
  forall a, ok a -> exists bs, jw a = Some bs /\ forall rest, decode_kind w k (bs ++ rest) = DOk (view a) rest.

Definition announce_view (a : announce) : bytes * bool :=
  match a with Active s => (s, true) | Ended s => (s, false) end.
Definition announce_back (a : bytes * bool) : announce := if snd a then Active (fst a) else Ended (fst a).
Definition subscribe_view (m : subscribe) : jsubscribe :=
  JSubscribe (sub_id m) (sub_broadcast m) (sub_track m) (Byte.to_N (sub_priority m)).
Definition subscribe_back (m : jsubscribe) : subscribe :=
  Subscribe (js_id m) (js_broadcast m) (js_track m) (match Byte.of_N (js_priority m) with Some b => b | None => x00 end).
(** A bitrate that is not known is [0] in JavaScript. *)
Definition info_view (b : option N) : N := match b with Some n => n | None => 0 end.
Definition info_back (n : N) : option N := match n with 0 => None | n => Some n end.

Definition safe_extensions (m : extensions) : Prop :=
  safe (N.of_nat (length m)) /\ NoDup (map fst m) /\ Forall (fun e => safe (N.of_nat (length (snd e)))) m.
Definition safe_announce (a : announce) : Prop := match a with Active s | Ended s => is_text s /\ plain_text s end.
Definition safe_subscribe (m : subscribe) : Prop :=
  is_text (sub_broadcast m) /\ is_text (sub_track m) /\ plain_text (sub_broadcast m) /\ plain_text (sub_track m).

(** What a JavaScript endpoint can be asked to send so that a Rust endpoint (of word size [w]) can hold it. *)
Definition fair_text (w : N) (s : bytes) : Prop := ok_text w s /\ safe (N.of_nat (length s)).
Definition fair_extensions (w : N) (m : extensions) : Prop :=
  ok_extensions w m /\ safe (N.of_nat (length m)) /\ Forall (fun e => safe (N.of_nat (length (snd e)))) m.

(** The payloads of the frames of a group. *)
Definition payloads (v : group_view) : list bytes := map (fun f => concat (fv_chunks f)) (gv_frames v).
(** Frames a JavaScript number can count. *)
Definition countable (f : frame_view) : Prop := safe (fv_size f).
(** A group as a JavaScript publisher has it: whole frames. *)
Definition js_view (frames : list bytes) : list frame_view :=
  map (fun f => FrameView (N.of_nat (length f)) [f] (AOk tt)) frames.

(** Two readers that will see the same bytes and the same end. *)
Definition alike (r1 r2 : reader) : Prop := content r1 = content r2 /\ ends r1 = ends r2.
Definition cut_anyhow {A} (jd : js A) : Prop := forall r1 r2, alike r1 r2 ->
  fst (jd r1) = fst (jd r2) /\ fst (jd r1) <> JFuel /\
  (forall a, fst (jd r1) = JOk a -> alike (snd (jd r1)) (snd (jd r2))).

(** The bytes of a subscription a Rust endpoint opens. *)
Definition rust_subscription (m : subscribe) (bs : bytes) : Prop :=
  exists t c, encode_kind KControl CSubscribe = Val t /\ encode_kind KSubscribe m = Val c /\ bs = wire t ++ wire c.
Definition rust_interest (p : bytes) (bs : bytes) : Prop :=
  exists t c, encode_kind KControl CAnnounce = Val t /\ encode_kind KAnnounceRequest p = Val c /\ bs = wire t ++ wire c.

(** What a Rust endpoint asks for on a stream of its own, as the JavaScript endpoint should understand it. *)
Definition asks (q : jbidi) (bs : bytes) : Prop :=
  match q with
  | BiSubscribe m => exists m', subscribe_view m' = m /\ safe_subscribe m' /\ rust_subscription m' bs
  | BiInterest p => is_text p /\ plain_text p /\ rust_interest p bs
  | BiClient _ => False
  end.
(** A priority that is the same for both. *)
Definition mild (q : jbidi) : Prop := match q with BiSubscribe m => js_priority m < 64 | _ => True end.
(** A stream on which [q] is asked and nothing else has been sent yet. *)
Definition asked (q : jbidi) (r : reader) : Prop := exists bs, asks q bs /\ content r = bs /\ ends r = Open.

(** IEEE 754: integers up to 2^53 are exact, and a double from 2^53 on is an even integer. *)
Definition ieee_rounding (round53 : N -> N) : Prop :=
  (forall n, n <= 2 ^ 53 -> round53 n = n) /\ (forall n, 2 ^ 53 <= n -> exists k, round53 n = 2 * k).
