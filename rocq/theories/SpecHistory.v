(** Specification: a tree through any history of [replace] and [modify] (C61). *)
From Verif Require Import Base Index Tree Builder Hist Node Iter Edit Spec SpecMap SpecEdit.

(** What a program may do with a tree and its nodes: set the value of node [i], or modify the whole tree. *)
Inductive edit (T : Type) :=
| EReplace (i : nat) (v : T)
| EModify (c : changeset).
Arguments EReplace {T} i v. Arguments EModify {T} c.

(** The calls.  There is nothing to call [replace] on when the tree has no node [i].  [values] are what the calls of [replace] return. *)
Fixpoint run_edits {T} (fuel : nat) (F : flavor) (es : list (edit T)) (t : tree T) (values : list T) : result (tree T * list T) :=
  match es with
  | [] => Ok (t, values)
  | EReplace i v :: es =>
    match tree_get t i with
    | None => run_edits fuel F es t values
    | Some n => let '(t', old) := tree_replace t n v in run_edits fuel F es t' (values ++ [old])
    end
  | EModify c :: es =>
    match modify fuel F c t with
    | Ok t' => run_edits fuel F es t' values
    | Err e => Err e
    | Diverge => Diverge
    end
  end.

(** The same history told for documents: the document it ends with and the values handed back, or [None]: the tree that some
    modify would make does not fit the pointer or index types. *)
Inductive rewritten {T} (F : flavor) : list (edit T) -> list (rose T) -> list T -> option (list (rose T) * list T) -> Prop :=
| rw_nil l vs : rewritten F [] l vs (Some (l, vs))
| rw_replace i v es l vs x r : In x (preorder_list l) -> r_id x = i ->
    rewritten F es (map (set_value i v) l) (vs ++ [r_data x]) r -> rewritten F (EReplace i v :: es) l vs r
| rw_no_node i v es l vs r : (forall x, In x (preorder_list l) -> r_id x <> i) -> rewritten F es l vs r -> rewritten F (EReplace i v :: es) l vs r
| rw_modify c es l l' n s vs r : edited c true false 0 0 l l' n s false ->
    (N.of_nat n <= int_max F (fl_width F))%N -> (s <= ix_max F)%N ->
    rewritten F es l' vs r -> rewritten F (EModify c :: es) l vs r
| rw_full c es l l' n s vs : edited c true false 0 0 l l' n s false ->
    (int_max F (fl_width F) < N.of_nat n)%N \/ (ix_max F < s)%N -> rewritten F (EModify c :: es) l vs None.

(** The numbers given to [modify] are pointers. *)
Definition edit_wf {T} (F : flavor) (e : edit T) : Prop :=
  match e with EReplace _ _ => True | EModify c => pointers F c end.

(** A tree with every value passed through [f]. *)
Definition links_values {T U} (f : T -> U) (l : links T) : links U :=
  Links (f (l_data l)) (l_span l) (l_parent l) (l_prev l) (l_next l) (l_first l) (l_last l).
Definition tree_values {T U} (f : T -> U) (t : tree T) : tree U :=
  Tree (map (links_values f) (t_nodes t)) (t_span t) (t_indexes t) (t_first t) (t_last t).
