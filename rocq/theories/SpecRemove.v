(** Specification: what [modify] makes of the removal of a last child (C33). *)
From Verif Require Import Base Index Tree Builder Hist Node Iter Edit Spec SpecSpan SpecEdit.

(** The parent of [k] occurs twice: without its last child [k], and once more as it was.  (Left without children, the
    first of the two is empty.) *)
Fixpoint doubled {T} (k : nat) (x : rose T) : list (rose T) :=
  match x with
  | Nd i kd d sp kids =>
    match last_error kids with
    | None => [x]
    | Some y =>
      if Nat.eqb (r_id y) k
      then [Nd i kd d (match removelast kids with [] => Span 0 0 | _ => sp end) (removelast kids); x]
      else [Nd i kd d sp (flat_map (doubled k) kids)]
    end
  end.
