(** Specification: when two documents are the same, identifiers aside. *)
From Verif Require Import Base Index Tree Builder Hist Node Iter Spec.

(** A document without identifiers and without the way its nodes were made. *)
Inductive shape (T : Type) := Sh (d : T) (sp : span) (kids : list (shape T)).
Arguments Sh {T} _ _ _.
Fixpoint erase {T} (x : rose T) : shape T :=
  match x with Nd _ _ d sp kids => Sh d sp (map erase kids) end.

(** The same up to a comparison of values: same shape, same spans, values that compare equal in
    the same places. *)
Inductive alike {T} (eqT : T -> T -> bool) : rose T -> rose T -> Prop :=
| alike_node i1 i2 k1 k2 d1 d2 sp kids1 kids2 :
    eqT d1 d2 = true -> Forall2 (alike eqT) kids1 kids2 ->
    alike eqT (Nd i1 k1 d1 sp kids1) (Nd i2 k2 d2 sp kids2).
