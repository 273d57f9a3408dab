(** Specification: what a walk shows of a tree (depth, node), and when two trees show the same. *)
Set Implicit Arguments.
From Verif Require Import Base Index Tree Node Iter Spec SpecTour.

(** The nodes that the tour comes to from above or from the left, with their depths. *)
Definition shown {T} (t : tree T) (l : list (rose T)) : list (Z * rose T) :=
  map (fun v => (fst (fst v), snd v)) (filter downwards (tour (named t) l)).

(** Node by node: the same depth, values that compare equal, the same span. *)
Definition show_alike {T} (eqT : T -> T -> bool) : list (Z * rose T) -> list (Z * rose T) -> Prop :=
  Forall2 (fun a b => fst a = fst b /\ eqT (r_data (snd a)) (r_data (snd b)) = true /\ r_span (snd a) = r_span (snd b)).
