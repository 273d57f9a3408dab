(** The derived orders and hashes of identifiers and spans: src/pointer.rs line 90, src/span.rs line 8, src/empty.rs line 15.  No proofs. *)
From Verif Require Import Base Pointer Index.
Open Scope N_scope.

(** src/pointer.rs lines 90-92: [derive(PartialOrd, Ord)] on a newtype compares what is stored, the non-zero integer. *)
Definition ptr_cmp (a b : N) : comparison := N.compare a b.

(** src/empty.rs line 15: all values of [Empty] are equal; u32 and usize compare as numbers. *)
Definition ix_cmp (F : flavor) (a b : N) : comparison :=
  match fl_index F with
  | IxEmpty => Eq
  | _ => N.compare a b
  end.

(** src/span.rs lines 8-15: [derive(PartialOrd, Ord)] compares the fields in the order of their declaration. *)
Definition span_cmp (F : flavor) (a b : span) : comparison :=
  match ix_cmp F (s_start a) (s_start b) with
  | Eq => ix_cmp F (s_end a) (s_end b)
  | c => c
  end.

(** [derive(Hash)] feeds the fields to the hasher in the order of their declaration: src/pointer.rs line 90, src/span.rs line 8,
    src/empty.rs line 15 (a unit struct feeds nothing). *)
Definition ptr_hash (a : N) : list N := [a].
Definition ix_hash (F : flavor) (a : N) : list N := match fl_index F with IxEmpty => [] | _ => [a] end.
Definition span_hash (F : flavor) (a : span) : list N := ix_hash F (s_start a) ++ ix_hash F (s_end a).
