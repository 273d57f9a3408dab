(** Specification: the way a walk takes through a tree, when nodes may name a parent other than the node among whose
    children they are read. *)
Set Implicit Arguments.
From Verif Require Import Base Index Tree Node Iter Spec.

(** The parent that a node names: what [Node::parent] answers. *)
Definition named {T} (t : tree T) (i : nat) : option nat :=
  match tree_get t i with Some n => option_map fst (node_parent (t_nodes t) n) | None => None end.

Section Tour.
Context {T : Type}.
Variable parent : nat -> option nat.
(** Every visit: the depth, how the node was reached, the node. *)
Definition visits : Type := list (Z * event * rose T).

(** A row of siblings is visited from left to right.  After the last one the walk climbs to the parent that this one names,
    with the depth one less.  A walk that climbs past the row goes on from there: the rest of the row is
    not visited.  Result: the visits, where the walk has climbed to (nowhere: it is over) and the depth there. *)
Definition tour_row_with (rec : event -> Z -> rose T -> visits * (option nat * Z)) :
  event -> Z -> list (rose T) -> visits * (option nat * Z) :=
  fix row e d l := match l with
  | [] => ([], (None, d))
  | x :: rest =>
    let '(tr, (at_, d')) := rec e d x in
    if opt_nat_eqb at_ (Some (r_id x)) then
      match rest with
      | [] => (tr, (parent (r_id x), d' - 1)%Z)
      | _ => let '(tr', r) := row Next d' rest in (tr ++ tr', r)
      end
    else (tr, (at_, d'))
  end.
(** A node, then its children; when the walk climbs back to the node, it is visited once more on the way up. *)
Fixpoint tour_from (e : event) (d : Z) (x : rose T) : visits * (option nat * Z) :=
  match r_kids x with
  | [] => ([(d, e, x)], (Some (r_id x), d))
  | _ =>
    let '(tr, (at_, d')) := match x with Nd _ _ _ _ kids => tour_row_with tour_from Down (d + 1)%Z kids end in
    if opt_nat_eqb at_ (Some (r_id x)) then ((d, e, x) :: tr ++ [(d', Up, x)], (at_, d')) else ((d, e, x) :: tr, (at_, d'))
  end.
Definition tour_row := tour_row_with tour_from.
(** The whole tree. *)
Definition tour (l : list (rose T)) : visits := fst (tour_row Next 0%Z l).
End Tour.

Definition downwards {T} (v : Z * event * rose T) : bool := match snd (fst v) with Up => false | _ => true end.

(** [a] is [b] with some elements left out. *)
Inductive subsequence {A} : list A -> list A -> Prop :=
| ss_nil : subsequence [] []
| ss_take x a b : subsequence a b -> subsequence (x :: a) (x :: b)
| ss_skip x a b : subsequence a b -> subsequence a (x :: b).
