(** Specification: searches from both ends of a list. *)
From Coq Require Import List. Import ListNotations.
From Verif Require Import Base Spec.

(** The first that satisfies [q], and what is behind it; what is before it is used up. *)
Fixpoint first_of {A} (q : A -> bool) (xs : list A) : option A * list A :=
  match xs with
  | [] => (None, [])
  | x :: r => if q x then (Some x, r) else first_of q r
  end.
(** The last, and what is before it. *)
Definition final_of {A} (q : A -> bool) (xs : list A) : option A * list A := let '(o, r) := first_of q (rev xs) in (o, rev r).

(** Requests one after the other, each [find] ([true]) or [rfind] ([false]) with a predicate of its own: the answers. *)
Fixpoint searches {A} (rs : list (bool * (A -> bool))) (xs : list A) : list (option A) :=
  match rs with
  | [] => []
  | (front, q) :: rs => let '(o, r) := if front then first_of q xs else final_of q xs in o :: searches rs r
  end.
