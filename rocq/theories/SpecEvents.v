(** Specification: the event after an event, in terms of the node links (C20). *)
Set Implicit Arguments.
From Verif Require Import Base Tree Node Iter.

(** After an event (e, n): down to the first child of a node that was just entered; else on to the next sibling; else up to the
    parent; else nothing. *)
Definition follow {T} (nodes : list (links T)) (a : event * node T) : option (event * node T) :=
  let '(e, n) := a in
  match match e with Up => None | _ => node_first nodes n end, node_next nodes n, node_parent nodes n with
  | Some c, _, _ => Some (Down, c)
  | None, Some m, _ => Some (Next, m)
  | None, None, Some p => Some (Up, p)
  | None, None, None => None
  end.

(** Every event is followed by the one that [follow] names; the last by none. *)
Definition followed {T} (nodes : list (links T)) (items : list (event * node T)) : Prop :=
  forall pre a post, items = pre ++ a :: post -> hd_error post = follow nodes a.

(** How often a node is entered, and how often it is left. *)
Definition entries {T} (i : nat) (items : list (event * node T)) : nat :=
  length (filter (fun a => match fst a with Up => false | _ => Nat.eqb (fst (snd a)) i end) items).
Definition exits {T} (i : nat) (items : list (event * node T)) : nat :=
  length (filter (fun a => match fst a with Up => Nat.eqb (fst (snd a)) i | _ => false end) items).
