(** Specification for failing storages.  Every push of a node or of an index entry may fail, at any
    time, and later pushes may succeed again: each call comes with the fault that hits it (a call
    makes at most one push of each sort). *)
Set Implicit Arguments.
From Verif Require Import Base Index Tree Builder Hist Node Iter Query Spec.

Inductive fault := NoFault | LinkFault | IndexFault.

(** The flavor as it acts during a call: the storage of nodes, or of index entries, refuses. *)
Definition faulty (F : flavor) (f : fault) : flavor :=
  match f with
  | NoFault => F
  | LinkFault => Flavor (fl_usize_max F) (fl_index F) (fl_width F) (SBounded 0) (fl_indexes F)
  | IndexFault => Flavor (fl_usize_max F) (fl_index F) (fl_width F) (fl_storage F) (SBounded 0)
  end.

Fixpoint run_faulty {T} (F : flavor) (w : world T) (l : list (op T * fault)) : world T * list out :=
  match l with
  | [] => (w, [])
  | (o, f) :: l =>
      let '(w, r) := step (faulty F f) w o in
      let '(w, rs) := run_faulty F w l in
      (w, r :: rs)
  end.
Definition faulty_world {T} (F : flavor) (l : list (op T * fault)) : world T := fst (run_faulty F world_new l).
Definition faulty_outs {T} (F : flavor) (l : list (op T * fault)) : list out := snd (run_faulty F world_new l).

(** If it succeeded, the call would add a node around existing nodes. *)
Definition wraps {T} (F : flavor) (w : world T) (o : op T) : Prop :=
  exists id n, snd (step F w o) = RNode id /\
    tree_get (b_tree (w_builder (fst (step F w o)))) id = Some n /\ has_children n = true.

(** No wrapping call is hit by a failing push of a node. *)
Fixpoint careful {T} (F : flavor) (w : world T) (l : list (op T * fault)) : Prop :=
  match l with
  | [] => True
  | (o, f) :: l => (f = LinkFault -> ~ wraps F w o) /\ careful F (fst (step (faulty F f) w o)) l
  end.

(** The nodes and their links, the roots, and the index. *)
Definition same_nodes {T} (t u : tree T) : Prop :=
  t_nodes u = t_nodes t /\ t_first u = t_first t /\ t_last u = t_last t /\ t_indexes u = t_indexes t.

(** A flavor with room for [cap] nodes and [icap] index entries in its storages. *)
Definition limited (F : flavor) (cap icap : nat) : flavor :=
  Flavor (fl_usize_max F) (fl_index F) (fl_width F) (SBounded cap) (SBounded icap).
