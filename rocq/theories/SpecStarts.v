(** Specification: histories whose tokens are all given their spans (C31). *)
From Verif Require Import Base Index Tree Builder Hist Node Iter Query Edit Spec SpecEq SpecSpan SpecMap SpecRange SpecEdit.
Local Open Scope N_scope.

(** Tokens are given their spans, and not empty ones; no other node is.  (Empty tokens without a span may occur.) *)
Definition spanned {T} (F : flavor) (o : op T) : bool :=
  match o with
  | OToken _ len => len_is_empty F len
  | OTokenWith _ sp => s_start sp <? s_end sp
  | OOpenWith _ _ | OCloseAtWith _ _ _ => false
  | _ => true
  end.

(** Trees that are asked by the starts of their tokens: built by such calls, with ascending starts, or modified; values may have been
    replaced since. *)
Inductive by_starts {T} (F : flavor) : tree T -> list (rose T) -> Prop :=
| starts_built t l ops ks : finished F ops t l -> forallb (spanned F) ops = true ->
    files (preorder_list l) ops (run_outs F ops) ks -> ascending ks -> by_starts F t l
| starts_modified t l t0 l0 c fuel n s : made F t0 l0 -> forward_leaves l0 -> pointers F c ->
    edited c true false 0 0 l0 l n s false -> modify fuel F c t0 = Ok t -> fits F t -> by_starts F t l
| starts_replaced t l i n v t' old : by_starts F t l -> tree_get t i = Some n -> tree_replace t n v = (t', old) ->
    by_starts F t' (map (set_value i v) l).
