(** Specification: two builders that do not affect each other. *)
Set Implicit Arguments.
From Verif Require Import Base Pointer Index Tree Builder Hist Clone.

(** The calls on one of the two builders, and their results. *)
Fixpoint calls_on {T} (side : bool) (ops : list (bool * op T)) : list (op T) :=
  match ops with
  | [] => []
  | (s, o) :: ops => if Bool.eqb s side then o :: calls_on side ops else calls_on side ops
  end.
Fixpoint results_on {T} (side : bool) (ops : list (bool * op T)) (rs : list out) : list out :=
  match ops, rs with
  | (s, _) :: ops, r :: rs => if Bool.eqb s side then r :: results_on side ops rs else results_on side ops rs
  | _, _ => []
  end.
Definition builder_of {T} (side : bool) (p : pair T) : builder T :=
  if side then p_left p else p_right p.

(** The builder as it was at the time of the clone, used alone; no checkpoints at hand yet. *)
Definition alone {T} (w : world T) : world T := World (w_heap w) (w_builder w) [].

(** A node was added since the last checkpoint was taken (or none was taken). *)
Fixpoint moved_on {T} (b : bool) (ops : list (op T)) (rs : list out) : bool :=
  match ops, rs with
  | _ :: ops, RNode _ :: rs => moved_on true ops rs
  | _ :: ops, RCheckpoint :: rs => moved_on false ops rs
  | _ :: ops, _ :: rs => moved_on b ops rs
  | _, _ => b
  end.
