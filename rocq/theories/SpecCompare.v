(** Specification for C60. *)
From Verif Require Import Base Index Tree Builder Hist Compare.

(** The identifiers that calls returned, in the order of the calls. *)
Definition ids_of (rs : list out) : list nat := flat_map (fun r => match r with RNode id => [id] | _ => [] end) rs.

(** Not after, in the order of spans. *)
Definition span_le (F : flavor) (a b : span) : Prop := span_cmp F a b <> Gt.
