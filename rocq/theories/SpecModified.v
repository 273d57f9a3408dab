(** Specification: trees that came out of [ChangeSet::modify] (C58). *)
From Verif Require Import Base Index Tree Builder Hist Node Iter Edit Spec SpecMap SpecEdit.

(** [t] is what some modify returned for a tree that came from a builder (and may have been modified before), perhaps with
    values replaced since; [l] is the document it shows. *)
Inductive modified {T} (F : flavor) : tree T -> list (rose T) -> Prop :=
| modified_now fuel c t0 l0 n s t l : made F t0 l0 -> pointers F c -> edited c true false 0 0 l0 l n s false ->
    modify fuel F c t0 = Ok t -> modified F t l
| modified_replaced t l i n v t' old : modified F t l -> tree_get t i = Some n -> tree_replace t n v = (t', old) ->
    modified F t' (map (set_value i v) l).
