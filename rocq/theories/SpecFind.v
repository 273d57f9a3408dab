(** Specification of find_preceding: up to a preceding sibling that satisfies
    the predicate, then down through last children.  The predicate [p] may keep a state between its
    calls: [p s x = (s', b)]. *)
From Verif Require Import Base Index Tree Builder Hist Node Iter Spec.

(** [z] is the sibling just before [y]. *)
Definition prev_sibling {T} (l : list (rose T)) (y z : rose T) : Prop :=
  exists p s1 s2, In (p, s1 ++ z :: y :: s2) (sibling_lists l).

(** Along the nodes [chain] (a node and its ancestors, nearest first), the first
    whose preceding sibling satisfies [p]; that sibling.  [p] is asked about exactly the preceding
    siblings met, in this order: it starts in the first state and ends in the second. *)
Inductive seek_up {T St} (l : list (rose T)) (p : St -> rose T -> St * bool) :
    St -> list (rose T) -> St -> option (rose T) -> Prop :=
| up_end s : seek_up l p s [] s None
| up_found s s' y z chain : prev_sibling l y z -> p s z = (s', true) -> seek_up l p s (y :: chain) s' (Some z)
| up_skip s s1 s' y z chain r : prev_sibling l y z -> p s z = (s1, false) ->
    seek_up l p s1 chain s' r -> seek_up l p s (y :: chain) s' r
| up_first s s' y chain r : (forall z, ~ prev_sibling l y z) ->
    seek_up l p s chain s' r -> seek_up l p s (y :: chain) s' r.

(** From [z] through last children as long as they satisfy [p]. *)
Inductive seek_down {T St} (p : St -> rose T -> St * bool) : St -> rose T -> St -> rose T -> Prop :=
| down_leaf s z : r_kids z = [] -> seek_down p s z s z
| down_stop s s' z y : last_error (r_kids z) = Some y -> p s y = (s', false) -> seek_down p s z s' z
| down_go s s1 s' z y r : last_error (r_kids z) = Some y -> p s y = (s1, true) -> seek_down p s1 y s' r -> seek_down p s z s' r.

(** A predicate on nodes that looks at what a caller sees of a node (identifier, value, span, whether it
    has children) and at its own state: the corresponding predicate on the document. *)
Definition same_predicate {T St} (p : St -> node T -> St * bool) (q : St -> rose T -> St * bool) : Prop :=
  forall s n x, view n = rview x -> p s n = q s x.
(** A predicate without state. *)
Definition stateless {X} (q : X -> bool) : unit -> X -> unit * bool := fun _ x => (tt, q x).
