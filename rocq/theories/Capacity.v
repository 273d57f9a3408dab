(** [Tree::capacity] (src/tree.rs lines 150-175) and the storages behind it (src/flavor.rs lines 7-50).  No proofs.
    The allocator is left open: what [Vec] does is given by the contract of its documentation, as relations.  Entries ([Links]) have pointers in them and so are
    never of size zero (for those [Vec::capacity] would be [usize::MAX]); running out of memory aborts and is not modelled. *)
Set Implicit Arguments.
From Verif Require Import Base Index Tree Builder Hist Node Edit.

(** A [Vec], as far as its room goes. *)
Record vec := Room { v_len : nat; v_cap : nat }.

(** src/flavor.rs line 33, [EMPTY]: [Vec::new()] does not allocate. *)
Definition vec_empty : vec := Room 0 0.
(** lines 35-38, [with_capacity]: room for at least so many. *)
Definition vec_with_capacity (n : nat) (v : vec) : Prop := v_len v = 0 /\ n <= v_cap v.
(** lines 45-49, [push]: one more; no new allocation while there is room, else an allocation with room for it. *)
Definition vec_push (v v' : vec) : Prop :=
  v_len v' = S (v_len v) /\ if v_len v <? v_cap v then v_cap v' = v_cap v else S (v_len v) <= v_cap v'.
(** [Vec::clone] (src/tree.rs lines 540-555, src/builder.rs lines 1018-1034): as long, with any room. *)
Definition vec_clone (v v' : vec) : Prop := v_len v' = v_len v /\ v_len v <= v_cap v'.
(** lines 40-43 and src/tree.rs lines 173-175. *)
Definition capacity (v : vec) : nat := v_cap v.

(** [n] calls of [push]: src/tree.rs lines 252-254 is the only place where the storage is changed in length. *)
Inductive pushes : nat -> vec -> vec -> Prop :=
| push_none v : pushes 0 v v
| push_more n v v1 v2 : vec_push v v1 -> pushes n v1 v2 -> pushes (S n) v v2.

(** What a call of the builder does to the storage: it pushes what it adds. *)
Definition call_vec {T} (F : flavor) (ops : list (op T)) (o : op T) : vec -> vec -> Prop :=
  pushes (tree_len (b_tree (w_builder (run_world F (ops ++ [o])))) - tree_len (b_tree (w_builder (run_world F ops)))).
(** The storage [v] of a builder after calls: src/builder.rs lines 168-178 ([new_with]), the calls, and [clone]. *)
Inductive builder_vec {T} (F : flavor) : list (op T) -> vec -> Prop :=
| bv_new : builder_vec F [] vec_empty
| bv_call ops o v v' : builder_vec F ops v -> call_vec F ops o v v' -> builder_vec F (ops ++ [o]) v'
| bv_clone ops v v' : builder_vec F ops v -> vec_clone v v' -> builder_vec F ops v'.

(** src/edit.rs lines 178 and 255-263: [modify] makes [t'] from [t] with storage [v]; its own storage is first [v0], at last [v']. *)
Definition modify_vec {T} (fuel : nat) (F : flavor) (c : changeset) (t : tree T) (v : vec) (t' : tree T) (v0 v' : vec) : Prop :=
  modify fuel F c t = Ok t' /\ vec_with_capacity (capacity v) v0 /\ pushes (tree_len t') v0 v'.

(** The storage of a tree: of its builder (src/builder.rs lines 966-972 moves it), of a new tree (src/tree.rs lines 52-60), of a clone,
    of a tree that [replace] has changed in place, or that [modify] has made. *)
Inductive tree_vec {T} (F : flavor) : tree T -> vec -> Prop :=
| tv_new : tree_vec F tree_new vec_empty
| tv_built ops t v : builder_vec F ops v -> Builder.build (w_builder (run_world F ops)) = Ok t -> tree_vec F t v
| tv_clone t v v' : tree_vec F t v -> vec_clone v v' -> tree_vec F t v'
| tv_replaced t v n x t' old : tree_vec F t v -> tree_replace t n x = (t', old) -> tree_vec F t' v
| tv_modified fuel c t t' v v0 v' : tree_vec F t v -> modify_vec fuel F c t v t' v0 v' -> tree_vec F t' v'.
