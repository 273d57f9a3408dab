(** Any number of builders, used in any order, with checkpoints passed freely between them.  No
    proofs. *)
Set Implicit Arguments.
From Verif Require Import Base Pointer Index Tree Builder Hist.

(** The heap of checkpoint cells is common to all builders (a [Checkpoint] is an [Rc],
    src/builder/checkpoint.rs line 15, and nothing in it names the builder it came from: lines
    5-18). Simplified: all builders have the same value type and flavor. [m_marks] are all checkpoints obtained so far, from whichever builder. *)
Record mix (T : Type) := Mixed {
  m_heap : heap;
  m_builders : list (builder T);
  m_marks : list nat;
}.
Arguments m_heap {T} _. Arguments m_builders {T} _. Arguments m_marks {T} _.
Arguments Mixed {T} _ _ _.

Definition mix_new {T} : mix T := Mixed [] [] [].

(** One call: src/builder.rs lines 168-176 [new_with], lines 1024-1032 [clone] of the i-th builder, or any
    call of [op] on the i-th builder (from 0, in order of creation).  In [OCloseAt k] the number
    counts the checkpoints of all builders. *)
Inductive mix_op (T : Type) :=
| MNew
| MClone (i : nat)
| MCall (i : nat) (o : op T).
Arguments MNew {T}. Arguments MClone {T} _. Arguments MCall {T} _ _.

Definition mix_step {T} (F : flavor) (m : mix T) (o : mix_op T) : mix T * out :=
  match o with
  | MNew => (Mixed (m_heap m) (m_builders m ++ [builder_new]) (m_marks m), RUnit)
  | MClone i =>
      match nth_error (m_builders m) i with
      | None => (m, RNoHandle)
      | Some b => (Mixed (m_heap m) (m_builders m ++ [builder_clone b]) (m_marks m), RUnit)
      end
  | MCall i o =>
      match nth_error (m_builders m) i with
      | None => (m, RNoHandle)
      | Some b =>
          let '(w, r) := step F (World (m_heap m) b (m_marks m)) o in
          (Mixed (w_heap w) (upd (m_builders m) i (fun _ => w_builder w)) (w_env w), r)
      end
  end.

Fixpoint mix_run {T} (F : flavor) (m : mix T) (ops : list (mix_op T)) : mix T * list out :=
  match ops with
  | [] => (m, [])
  | o :: ops =>
      let '(m, r) := mix_step F m o in
      let '(m, rs) := mix_run F m ops in
      (m, r :: rs)
  end.

(** The same, for programs that use checkpoints on the builder they came from: each builder comes with
    the list of its own checkpoints, and [OCloseAt k] on it means the [k]-th of these.  The heap of
    cells is still common.  No clones (src/builder.rs lines 1024-1032; they share a checkpoint, see
    Clone.v). *)
Record shop (T : Type) := Shop { sh_heap : heap; sh_builders : list (builder T * list nat) }.
Arguments sh_heap {T} _. Arguments sh_builders {T} _. Arguments Shop {T} _ _.
Definition shop_new {T} : shop T := Shop [] [].
Inductive shop_op (T : Type) := SNew | SCall (i : nat) (o : op T).
Arguments SNew {T}. Arguments SCall {T} _ _.
Definition shop_step {T} (F : flavor) (s : shop T) (o : shop_op T) : shop T * out :=
  match o with
  | SNew => (Shop (sh_heap s) (sh_builders s ++ [(builder_new, [])]), RUnit)
  | SCall i o =>
      match nth_error (sh_builders s) i with
      | None => (s, RNoHandle)
      | Some (b, env) =>
          let '(w, r) := step F (World (sh_heap s) b env) o in
          (Shop (w_heap w) (upd (sh_builders s) i (fun _ => (w_builder w, w_env w))), r)
      end
  end.
Fixpoint shop_run {T} (F : flavor) (s : shop T) (ops : list (shop_op T)) : shop T * list out :=
  match ops with
  | [] => (s, [])
  | o :: ops =>
      let '(s, r) := shop_step F s o in
      let '(s, rs) := shop_run F s ops in
      (s, r :: rs)
  end.
