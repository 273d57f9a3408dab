(** [Node::replace] while iterators are under way: src/node/node_impl.rs lines 24-31, 68-98 and the iterators of src/node.  No proofs.
    A [Node] and an iterator hold references into the table; the values in it are [Cell]s, so [replace] needs no [&mut] and can be called on any
    node of the tree between two calls of an iterator, and [value] reads what is in the cell at that time. *)
Set Implicit Arguments.
From Verif Require Import Base Pointer Index Tree Node Iter.

(** What the program does next: ask the iterator (from the front or from the back), or [replace] the value of a node. *)
Inductive act (T : Type) := Go (front : bool) | Put (i : nat) (v : T).
Arguments Go {T} _. Arguments Put {T} _ _.

(** [value] of the node at a position, now (lines 68-70). *)
Definition value_now {T} (nodes : list (links T)) (i : nat) : option T := option_map (@node_value T) (node_at nodes i).
(** [replace] of the node at a position (lines 96-98). *)
Definition put {T} (nodes : list (links T)) (i : nat) (v : T) : list (links T) :=
  match node_at nodes i with Some n => fst (node_replace nodes n v) | None => nodes end.
(** What it returns. *)
Definition put_back {T} (nodes : list (links T)) (i : nat) (v : T) : option T :=
  match node_at nodes i with Some n => Some (snd (node_replace nodes n v)) | None => None end.

(** What is seen: an item (what comes with the node, its position, its value read at once), or the value that [replace] returns. *)
Inductive sight (X T : Type) := Saw (o : option (X * nat * option T)) | Was (o : option T).
Arguments Saw {X T} _. Arguments Was {X T} _.

(** The run of a program with one iterator; others would change nothing in the table. *)
Fixpoint live {T X S} (nxt : bool -> list (links T) -> S -> result (S * option (X * node T))) (nodes : list (links T)) (acts : list (act T)) (s : S)
  : result (list (sight X T)) :=
  match acts with
  | [] => Ok []
  | Put i v :: acts =>
      match live nxt (put nodes i v) acts s with Ok l => Ok (Was (put_back nodes i v) :: l) | Err e => Err e | Diverge => Diverge end
  | Go b :: acts =>
      match nxt b nodes s with
      | Ok (s, o) =>
          match live nxt nodes acts s with
          | Ok l => Ok (Saw (option_map (fun a => (fst a, fst (snd a), value_now nodes (fst (snd a)))) o) :: l)
          | Err e => Err e | Diverge => Diverge
          end
      | Err e => Err e | Diverge => Diverge
      end
  end.

(** The iterators in this form.  An iterator in one direction ignores the [bool]. *)
Definition plain {T S} (r : result (S * option (node T))) : result (S * option (unit * node T)) :=
  match r with Ok (s, o) => Ok (s, option_map (fun n => (tt, n)) o) | Err e => Err e | Diverge => Diverge end.
Definition live_walk {T} (F : flavor) (b : bool) (nodes : list (links T)) (s : walk_it) := plain (walk_next F nodes s).
Definition live_inside {T} (F : flavor) (b : bool) (nodes : list (links T)) (s : walk_it) := plain (inside_next F nodes s).
Definition live_depths {T} (F : flavor) (b : bool) (nodes : list (links T)) (s : walk_it) := walk_depths_next F nodes s.
Definition live_events {T} (F : flavor) (b : bool) (nodes : list (links T)) (s : walk_it) := @Ok (walk_it * option (event * node T)) (walk_events_next F nodes s).
Definition live_children {T} (b : bool) (nodes : list (links T)) (s : children_it) :=
  plain (Ok (if b then children_next nodes s else children_next_back nodes s)).
(** [Siblings] and [Ancestors] hold a reference to the next node: its position. *)
Definition live_siblings {T} (b : bool) (nodes : list (links T)) (s : option nat) :=
  plain (let '(s, o) := siblings_next nodes (node_opt nodes s) in Ok (option_map fst s, o)).
Definition live_ancestors {T} (b : bool) (nodes : list (links T)) (s : option nat) :=
  plain (let '(s, o) := ancestors_next nodes (node_opt nodes s) in Ok (option_map fst s, o)).
