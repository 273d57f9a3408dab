(** Specification: what [last()] and the back end of [children()] see when [close_at] has wrapped the last sibling
    (C09, C24). *)
Set Implicit Arguments.
From Verif Require Import Base Tree Node Iter Spec.

(** The siblings the back end of the list [s] of children of [p] sees: [s] itself when its last node is settled, and
    otherwise what it would see of the children of that last node, the siblings it had before it was wrapped. *)
Inductive sees {T} (p : option (rose T)) : list (rose T) -> list (rose T) -> Prop :=
| sees_here s : settled p s -> sees p s s
| sees_inside s x s' : last_error s = Some x -> ~ settled p s -> sees p (r_kids x) s' -> sees p s s'.

(** Taking from the front of one list and from the back of another until either runs out. *)
Fixpoint two_ended {A} (sched : list bool) (front back : list A) : list (option A) :=
  match sched with
  | [] => []
  | e :: sched =>
    match front, last_error back with
    | x :: front', Some y =>
        if e then Some x :: two_ended sched front' back
        else Some y :: two_ended sched front (removelast back)
    | _, _ => None :: two_ended sched [] []
    end
  end.
