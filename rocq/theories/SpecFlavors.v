(** Specification: the same calls in two flavors (C59). *)
From Verif Require Import Base Pointer Index Tree Builder Hist Node Iter Spec.

(** Two flavors that keep positions (their index is u32 or usize, not Empty) in storages of the same kinds.  The index types, the
    widths and the targets may differ. *)
Definition comparable (F G : flavor) : Prop :=
  fl_index F <> IxEmpty /\ fl_index G <> IxEmpty /\ fl_storage F = fl_storage G /\ fl_indexes F = fl_indexes G.

(** [G] has room for all that [F] has room for: nodes, and positions. *)
Definition roomier (F G : flavor) : Prop :=
  (int_max F (fl_width F) <= int_max G (fl_width G))%N /\ (ix_max F <= ix_max G)%N.

(** No call was refused because a limit was reached. *)
Definition no_overflow (rs : list out) : Prop := ~ In (RErr Overflow) rs.

(** Two iterators give the same items, and then both nothing more. *)
Definition same_items {S A : Type} (f g : S -> result (S * option A)) (s1 s2 : S) : Prop :=
  exists items, enumerates f s1 items /\ enumerates g s2 items.
