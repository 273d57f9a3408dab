(** Specification: a tree as it is read through [first] and [next]. *)
From Verif Require Import Base Index Tree Builder Hist Node Edit Spec SpecMap SpecEdit.

(** What somebody sees who goes through a tree with [first] and [next] only, from the node [o] on: the
    values and spans, the nesting that [first] shows, the order that [next] shows; [has_children] agrees
    with [first].  (A tree does not say how a node was made: any [k].) *)
Inductive reads {T} (t : tree T) : option (node T) -> list (rose T) -> Prop :=
| rd_end : reads t None []
| rd_node n k kids rest : has_children n = match kids with [] => false | _ => true end ->
    reads t (node_first (t_nodes t) n) kids -> reads t (node_next (t_nodes t) n) rest ->
    reads t (Some n) (Nd (fst n) k (node_value n) (node_span n) kids :: rest).

(** Two readings are the same, except for what a tree does not tell: how a node was made. *)
Inductive same_reading {T} : list (rose T) -> list (rose T) -> Prop :=
| sr_nil : same_reading [] []
| sr_cons i k k' d sp kids kids' rest rest' : same_reading kids kids' -> same_reading rest rest' ->
    same_reading (Nd i k d sp kids :: rest) (Nd i k' d sp kids' :: rest').

(** Trees that come from a builder, whatever was called on it, after any number of calls of [modify]
    and [replace] in any order; and the document that is read, by [first] and [next], in them. *)
Inductive obtained {T} (F : flavor) : tree T -> list (rose T) -> Prop :=
| ob_built ops t l : vec_flavor F -> Forall (op_wf F) ops -> builds F ops t -> reads t (tree_first t) l -> obtained F t l
| ob_modified fuel c t l t' l' n s : obtained F t l -> pointers F c ->
    edited c true false 0 0 l l' n s false -> modify fuel F c t = Ok t' -> obtained F t' l'
| ob_replaced t l i n v t' old : obtained F t l -> tree_get t i = Some n -> tree_replace t n v = (t', old) ->
    obtained F t' (map (set_value i v) l).
