(** The catalogs of the Rust library that the JavaScript library can take. *)
From Coq Require Import NArith.
From Coq Require Import Strings.String.
From Coq Require Import List Bool.
From Coq Require Import Init.Byte Strings.Byte.
From Verif.Model Require Import Base Map Text Codec Json Native Catalog CatalogJson.
From Verif.Spec Require Import JsonSpec CatalogJsonSpec.
Import ListNotations.
Open Scope N_scope.

(** A whole number, maybe with zeros after the point *)
Definition whole (t : bytes) (n : N) : Prop := exists d k, counts d n /\ (t = d \/ t = d ++ x2e :: repeat x30 (S k)).

Section Floats.
Context {F64 F32 : Type} (f64_text : F64 -> option bytes) (f32_text : F32 -> option bytes).
Definition video_for_web (c : @video_config F64) : Prop :=
  within u32_max (vc_bitrate c) /\
  (forall x, vc_framerate c = Some x -> exists t n, f64_text x = Some t /\ whole t n /\ n <= u32_max) /\
  (forall x, vc_rotation c = Some x -> f64_text x <> None).
Definition location_for_web (nulls : bool) (o : @location F32) : Prop :=
  (forall p, lo_initial o = Some p -> f32_text (po_x p) <> None /\ f32_text (po_y p) <> None) /\
  (nulls = true -> lo_initial o <> None /\ lo_updates o <> None).
Definition for_web (nulls : bool) (c : @catalog_info F64 F32) : Prop :=
  Forall (fun i => video_for_web (vi_config i)) (ct_video c) /\ Forall (fun i => within u32_max (ac_bitrate (ai_config i))) (ct_audio c) /\
  (forall o, ct_location c = Some o -> location_for_web nulls o).
End Floats.

(** A text that is a catalog with a location, that has a peer by this name (as it is spelled in quotes) *)
Definition names_peer (s k : bytes) : Prop := exists v o p x, document v s /\
  holds catalog_names v (text "location") (JObj o) /\ holds location_names (JObj o) (text "peers") (JObj p) /\ In (k, x) p.
