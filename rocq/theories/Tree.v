(** src/links.rs and the storage part of src/tree.rs.  No proofs. *)
Set Implicit Arguments.
From Verif Require Import Base Index.

(** src/links.rs lines 8-27, [struct Links].  Pointers are represented by the
    value [Pointer::get] gives (see Pointer.v); [Cell<T>] by its contents. *)
Record links (T : Type) := Links {
  l_data : T;
  l_span : span;
  l_parent : option nat;
  l_prev : option nat;
  l_next : option nat;
  l_first : option nat;
  l_last : option nat;
}.
Arguments l_data {T} _. Arguments l_span {T} _. Arguments l_parent {T} _. Arguments l_prev {T} _. Arguments l_next {T} _. Arguments l_first {T} _. Arguments l_last {T} _.
Arguments Links {T} _ _ _ _ _ _ _.

(** Field assignments ([links.parent = ..] etc. in src/builder.rs). *)
Definition set_l_data {T} (v : T) (l : links T) :=
  Links v (l_span l) (l_parent l) (l_prev l) (l_next l) (l_first l) (l_last l).
Definition set_l_span {T} (v : span) (l : links T) :=
  Links (l_data l) v (l_parent l) (l_prev l) (l_next l) (l_first l) (l_last l).
Definition set_l_parent {T} (v : option nat) (l : links T) :=
  Links (l_data l) (l_span l) v (l_prev l) (l_next l) (l_first l) (l_last l).
Definition set_l_prev {T} (v : option nat) (l : links T) :=
  Links (l_data l) (l_span l) (l_parent l) v (l_next l) (l_first l) (l_last l).
Definition set_l_next {T} (v : option nat) (l : links T) :=
  Links (l_data l) (l_span l) (l_parent l) (l_prev l) v (l_first l) (l_last l).
Definition set_l_first {T} (v : option nat) (l : links T) :=
  Links (l_data l) (l_span l) (l_parent l) (l_prev l) (l_next l) v (l_last l).
Definition set_l_last {T} (v : option nat) (l : links T) :=
  Links (l_data l) (l_span l) (l_parent l) (l_prev l) (l_next l) (l_first l) v.

(** src/tree.rs lines 27-44, [struct Tree].  [t_indexes] is [F::Indexes], a
    storage of [TreeIndex { index, id }] (src/index.rs lines 129-137). *)
Record tree (T : Type) := Tree {
  t_nodes : list (links T);
  t_span : span;
  t_indexes : list (N * nat);
  t_first : option nat;
  t_last : option nat;
}.
Arguments t_nodes {T} _. Arguments t_span {T} _. Arguments t_indexes {T} _. Arguments t_first {T} _. Arguments t_last {T} _.
Arguments Tree {T} _ _ _ _ _.

Definition set_t_nodes {T} (v : list (links T)) (t : tree T) :=
  Tree v (t_span t) (t_indexes t) (t_first t) (t_last t).
Definition set_t_span {T} (v : span) (t : tree T) :=
  Tree (t_nodes t) v (t_indexes t) (t_first t) (t_last t).
Definition set_t_indexes {T} (v : list (N * nat)) (t : tree T) :=
  Tree (t_nodes t) (t_span t) v (t_first t) (t_last t).
Definition set_t_first {T} (v : option nat) (t : tree T) :=
  Tree (t_nodes t) (t_span t) (t_indexes t) v (t_last t).
Definition set_t_last {T} (v : option nat) (t : tree T) :=
  Tree (t_nodes t) (t_span t) (t_indexes t) (t_first t) v.

(** src/tree.rs lines 52-60, [Tree::new_with]. *)
Definition tree_new {T} : tree T := Tree [] (span_point ix_EMPTY) [] None None.

(** src/tree.rs lines 131-133, [Tree::len]. *)
Definition tree_len {T} (t : tree T) : nat := length (t_nodes t).

(** src/tree.rs lines 146-148, [Tree::is_empty]. *)
Definition tree_is_empty {T} (t : tree T) : bool := Nat.eqb (tree_len t) 0.

(** src/tree.rs lines 244-249 and 262-267, [get_mut]/[links_at_mut] followed by an
    assignment through the reference (no effect when the lookup fails). *)
Definition tree_upd {T} (i : nat) (f : links T -> links T) (t : tree T) : tree T :=
  set_t_nodes (upd (t_nodes t) i f) t.

(** src/tree.rs lines 252-254, [Tree::push]. *)
Definition tree_push {T} (F : flavor) (l : links T) (t : tree T) : option (tree T) :=
  option_map (fun ns => set_t_nodes ns t) (storage_push (fl_storage F) (t_nodes t) l).

(** src/tree.rs lines 257-259 with [Storage::push]. *)
Definition tree_push_index {T} (F : flavor) (ix : N) (id : nat) (t : tree T)
  : option (tree T) :=
  option_map (fun l => set_t_indexes l t) (storage_push (fl_indexes F) (t_indexes t) (ix, id)).

(** src/tree.rs lines 99-101 and 327-329, [Tree::span], [Tree::range]. *)
Definition tree_range {T} (F : flavor) (t : tree T) : N * N := span_range F (t_span t).
