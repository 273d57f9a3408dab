(** Specification: a tree built again from what [walk_events] shows of it.  This is a program a user would write; it is not
    in the repository. *)
From Verif Require Import Base Index Tree Builder Hist Node Iter Spec SpecEq SpecProgram.

(** For a node with children, [open]; for one without, [token] with the length of its span; on the way up, [close]. *)
Definition replay_call {T} (F : flavor) (i : event * node T) : op T :=
  match fst i with
  | Up => OClose
  | _ => if has_children (snd i) then OOpen (node_value (snd i))
         else OToken (node_value (snd i)) (span_len F (node_span (snd i)))
  end.
Definition replay {T} (F : flavor) (items : list (event * node T)) : list (op T) := map (replay_call F) items.

(** The text of a document: the childless nodes by length only, the nodes with children by what is in them. *)
Fixpoint text_of {T} (F : flavor) (x : rose T) : gtree T :=
  match x with
  | Nd _ _ d sp [] => GTok d (span_len F sp)
  | Nd _ _ d _ (k :: ks) => GNode d (text_of F k :: map (text_of F) ks)
  end.
