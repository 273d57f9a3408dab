(** Specification: documents that look alike to a change set; calls without checkpoints. *)
From Verif Require Import Base Index Tree Builder Hist Node Edit Spec SpecMap SpecEdit.

(** The same values, the same nesting, and the same spans of the nodes without children.  (Identifiers, and the spans of the
    nodes with children, may differ.) *)
Inductive look_alike {T} : list (rose T) -> list (rose T) -> Prop :=
| lk_nil : look_alike [] []
| lk_leaf i i' k k' d sp rest rest' : look_alike rest rest' ->
    look_alike (Nd i k d sp [] :: rest) (Nd i' k' d sp [] :: rest')
| lk_node i i' k k' d sp sp' y y' kids kids' rest rest' : look_alike (y :: kids) (y' :: kids') -> look_alike rest rest' ->
    look_alike (Nd i k d sp (y :: kids) :: rest) (Nd i' k' d sp' (y' :: kids') :: rest').

(** Calls with which nothing can be misused. *)
Definition plain_call {T} (o : op T) : Prop :=
  match o with OOpen _ | OTokenWith _ _ | OClose => True | _ => False end.

(** The same node, or none. *)
Definition same_node {T U} (o : option (node T)) (o' : option (node U)) : Prop := option_map fst o = option_map fst o'.

(** Two trees with as many nodes, in which every way from node to node leads to the same place. *)
Definition same_links {T U} (t : tree T) (u : tree U) : Prop :=
  tree_len t = tree_len u /\ same_node (tree_first t) (tree_first u) /\ same_node (tree_last t) (tree_last u) /\
  forall i n m, tree_get t i = Some n -> tree_get u i = Some m ->
    same_node (node_parent (t_nodes t) n) (node_parent (t_nodes u) m) /\
    same_node (node_prev (t_nodes t) n) (node_prev (t_nodes u) m) /\
    same_node (node_next (t_nodes t) n) (node_next (t_nodes u) m) /\
    same_node (node_first (t_nodes t) n) (node_first (t_nodes u) m) /\
    same_node (node_last (t_nodes t) n) (node_last (t_nodes u) m) /\
    has_children n = has_children m.
