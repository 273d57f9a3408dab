(** Words for histories over several builders (C53).  No proofs. *)
Set Implicit Arguments.
From Verif Require Import Base Pointer Index Tree Builder Hist Mix.

(** After [ops], starting with no builder, the [i]-th builder made is [b]. *)
Definition has_builder {T} (F : flavor) (ops : list (mix_op T)) (i : nat) (b : builder T) : Prop :=
  nth_error (m_builders (fst (mix_run F mix_new ops))) i = Some b.

(** After [ops], the [k]-th checkpoint obtained stands for position [node] (the number of nodes a
    builder had, or the number of a node) below the open node [parent]. *)
Definition has_checkpoint {T} (F : flavor) (ops : list (mix_op T)) (k node : nat) (parent : option nat) : Prop :=
  exists a, nth_error (m_marks (fst (mix_run F mix_new ops))) k = Some a /\
    nth_error (m_heap (fst (mix_run F mix_new ops))) a = Some (Cell node parent).

(** What the last call of a history returns. *)
Definition last_out {T} (F : flavor) (ops : list (mix_op T)) (o : mix_op T) : out :=
  snd (mix_step F (fst (mix_run F mix_new ops)) o).

(** The call is close_at or close_at_with with the [k]-th checkpoint. *)
Definition closes_at {T} (o : op T) (k : nat) : Prop :=
  match o with OCloseAt k' _ | OCloseAtWith k' _ _ => k' = k | _ => False end.

(** The calls made on the [i]-th builder, and what they returned.  [n] builders have been made before. *)
Fixpoint calls_on {T} (n i : nat) (ops : list (shop_op T)) : list (op T) :=
  match ops with
  | [] => []
  | SNew :: ops => calls_on (S n) i ops
  | SCall j o :: ops => if (j =? i) && (i <? n) then o :: calls_on n i ops else calls_on n i ops
  end.
Fixpoint outs_on {T} (n i : nat) (ops : list (shop_op T)) (rs : list out) : list out :=
  match ops, rs with
  | SNew :: ops, _ :: rs => outs_on (S n) i ops rs
  | SCall j _ :: ops, r :: rs => if (j =? i) && (i <? n) then r :: outs_on n i ops rs else outs_on n i ops rs
  | _, _ => []
  end.
Fixpoint news {T} (ops : list (shop_op T)) : nat :=
  match ops with [] => 0 | SNew :: ops => S (news ops) | _ :: ops => news ops end.
