(** Two builders, one cloned from the other, used in any interleaving.  No proofs. *)
Set Implicit Arguments.
From Verif Require Import Base Pointer Index Tree Builder Hist.

(** The heap of checkpoint cells is shared ([Rc], src/builder/checkpoint.rs line 15); each builder
    comes with the checkpoints that were obtained from it since the clone. *)
Record pair (T : Type) := Pair {
  p_heap : heap;
  p_left : builder T; p_left_env : list nat;
  p_right : builder T; p_right_env : list nat;
}.
Arguments p_heap {T} _. Arguments p_left {T} _. Arguments p_left_env {T} _.
Arguments p_right {T} _. Arguments p_right_env {T} _. Arguments Pair {T} _ _ _ _ _.

(** src/builder.rs lines 1024-1032, [clone], after some history. *)
Definition cloned {T} (w : world T) : pair T :=
  Pair (w_heap w) (w_builder w) [] (builder_clone (w_builder w)) [].

Definition left_world {T} (p : pair T) : world T := World (p_heap p) (p_left p) (p_left_env p).
Definition right_world {T} (p : pair T) : world T := World (p_heap p) (p_right p) (p_right_env p).

(** One call, on the left ([true]) or the right builder. *)
Definition pair_step {T} (F : flavor) (p : pair T) (o : bool * op T) : pair T * out :=
  if fst o then
    let '(w, r) := step F (left_world p) (snd o) in
    (Pair (w_heap w) (w_builder w) (w_env w) (p_right p) (p_right_env p), r)
  else
    let '(w, r) := step F (right_world p) (snd o) in
    (Pair (w_heap w) (p_left p) (p_left_env p) (w_builder w) (w_env w), r).

Fixpoint pair_run {T} (F : flavor) (p : pair T) (ops : list (bool * op T)) : pair T * list out :=
  match ops with
  | [] => (p, [])
  | o :: ops =>
      let '(p, r) := pair_step F p o in
      let '(p, rs) := pair_run F p ops in
      (p, r :: rs)
  end.
