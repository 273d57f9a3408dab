(** Specification: texts of what a walk shows; depths. *)
Set Implicit Arguments.
From Verif Require Import Base Index Tree Builder Node Iter Print Render Spec SpecEq SpecText SpecShown.

(** What the text of a tree tells of a node: depth, value, span. *)
Definition entry_of {T} (i : Z * rose T) : Z * (T * span) := (fst i, (r_data (snd i), r_span (snd i))).

(** The lines that [print] writes for what is shown. *)
Definition lines_text {T X} (source : span -> option X) (debug : T -> bytes) (quote : X -> bytes) (items : list (Z * rose T)) : bytes :=
  concat (map (line_text source debug quote) items).

(** The depth given is that of the node, the number of nodes around it, or more. *)
Definition deep_as_nested {T} (l : list (rose T)) (depth : Z) (x : rose T) : Prop :=
  exists nested, In (nested, x) (flat_map (preorder_depth 0) l) /\ (0 <= nested <= depth)%Z.
