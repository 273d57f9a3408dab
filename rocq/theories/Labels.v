(** Texts of the small types: identifiers, spans, errors, events.  No proofs. *)
From Coq Require Import Strings.String.
From Verif Require Import Base Pointer Index Iter Render.

(** src/pointer.rs lines 191-196, [Debug] of an identifier: the number that [get] gives. *)
Definition ptr_debug (F : flavor) (p : N) : bytes := decimal (ptr_get F p).
(** src/span.rs lines 167-175, [Display] of a span, as one text.  ([Empty] has no [Display].) *)
Definition span_text (sp : span) : bytes := concat (span_display sp).
(** src/error.rs line 5, the derived [Debug]; [flavor] is the [Debug] text of the flavor's own error. *)
Definition error_debug (flavor : bytes) (e : error) : bytes :=
  match e with
  | CloseError => lit_bytes "CloseError"
  | BuildError => lit_bytes "BuildError"
  | CloseAtError => lit_bytes "CloseAtError"
  | Overflow => lit_bytes "Overflow"
  | MissingNode p => lit_bytes "MissingNode(" ++ decimal (N.of_nat p) ++ lit_bytes ")"
  | FlavorError => lit_bytes "Flavor(" ++ flavor ++ lit_bytes ")"
  end.
(** src/error.rs lines 132-143, [source]: is there one?  (It is then the flavor's own error.) *)
Definition error_source (e : error) : bool := match e with FlavorError => true | _ => false end.
(** src/node/walk_events.rs line 11, the derived [Debug]. *)
Definition event_debug (e : event) : bytes :=
  match e with Next => lit_bytes "Next" | Down => lit_bytes "Down" | Up => lit_bytes "Up" end.
