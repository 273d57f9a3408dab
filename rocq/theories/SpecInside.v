(** Specification: what is left for [inside()] at any point of any walk (C56). *)
Set Implicit Arguments.
From Verif Require Import Base Tree Node Iter Spec.

(** Where a walk can be started, and the nodes it is going to visit, with their depths: [tree.walk()], [n.walk()] and
    [n.walk_from()].  [x] is the place of [n] in the document [l], [k] its depth there. *)
Inductive start {T} (F : flavor) (t : tree T) (l : list (rose T)) : walk_it -> list (Z * rose T) -> bool -> Prop :=
| start_tree : start F t l (tree_walk t) (flat_map (preorder_depth 0) l) true
| start_node x n pre k post : tree_get t (r_id x) = Some n ->
    flat_map (preorder_depth 0) l = pre ++ (k, x) :: post ->
    start F t l (node_walk F n) (map (fun i => (fst i - k, snd i)%Z) ((k, x) :: post)) true
| start_from x n pre k post : tree_get t (r_id x) = Some n ->
    flat_map (preorder_depth 0) l = pre ++ preorder_depth k x ++ post ->
    start F t l (node_walk_from F n) (map (fun i => (fst i - k, snd i)%Z) post) false.

(** The nodes that come before the walk is back at depth 0 or above. *)
Fixpoint deeper {X} (xs : list (Z * X)) : list X :=
  match xs with
  | (d, x) :: xs => if (0 <? d)%Z then x :: deeper xs else []
  | [] => []
  end.

(** [coming] are all nodes of the walk and [j] have been taken.  The next one is always visited if the walk is about to enter
    it, whatever its depth: that is so at the start ([at_node], but not for [walk_from]), and when it is a child or the next
    sibling of the last one taken.  Otherwise the walk is about to leave a node.  After that everything deeper than 0. *)
Definition inside_left {X} (at_node : bool) (coming : list (Z * X)) (j : nat) : list X :=
  match skipn j coming with
  | [] => []
  | (d, x) :: rest =>
      let enters := match j with
                    | 0 => at_node
                    | S i => match nth_error coming i with Some (last, _) => (last <=? d)%Z | None => false end
                    end in
      if enters then x :: deeper rest else deeper ((d, x) :: rest)
  end.
