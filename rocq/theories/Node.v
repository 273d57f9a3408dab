(** src/node/node_impl.rs and the node accessors of src/tree.rs.  No proofs. *)
Set Implicit Arguments.
From Verif Require Import Base Pointer Index Tree.

(** src/node/node_impl.rs lines 24-31: [Node] is a reference to a [Links]
    inside the slice, together with the slice.  Here: the slice position the
    reference points to, with the record found there.  The slice itself is an
    argument [nodes] of every function. *)
Definition node (T : Type) : Type := (nat * links T)%type.

(** lines 469-476, [node_at]; src/tree.rs lines 299-302, [Tree::get]. *)
Definition node_at {T} (nodes : list (links T)) (id : nat) : option (node T) :=
  match nth_error nodes id with
  | Some l => Some (id, l)
  | None => None
  end.

Definition tree_get {T} (t : tree T) (id : nat) : option (node T) := node_at (t_nodes t) id.

(** [self.node_at(self.links.x?)]. *)
Definition node_opt {T} (nodes : list (links T)) (o : option nat) : option (node T) :=
  match o with
  | Some id => node_at nodes id
  | None => None
  end.

Definition node_value {T} (n : node T) : T := l_data (snd n).            (* 68-70 *)
Definition node_span {T} (n : node T) : span := l_span (snd n).          (* 154-156 *)
Definition node_range {T} (F : flavor) (n : node T) : N * N :=
  span_range F (node_span n).                                            (* 554-556 *)
Definition has_children {T} (n : node T) : bool :=                       (* 120-122 *)
  match l_first (snd n) with Some _ => true | None => false end.
Definition node_is_empty {T} (n : node T) : bool :=                      (* 179-181 *)
  match l_first (snd n) with Some _ => false | None => true end.

Definition node_parent {T} (nodes : list (links T)) (n : node T) :=
  node_opt nodes (l_parent (snd n)).                                     (* 272-274 *)
Definition node_prev {T} (nodes : list (links T)) (n : node T) :=
  node_opt nodes (l_prev (snd n)).                                       (* 304-306 *)
Definition node_next {T} (nodes : list (links T)) (n : node T) :=
  node_opt nodes (l_next (snd n)).                                       (* 335-337 *)
Definition node_first {T} (nodes : list (links T)) (n : node T) :=
  node_opt nodes (l_first (snd n)).                                      (* 366-368 *)
Definition node_last {T} (nodes : list (links T)) (n : node T) :=
  node_opt nodes (l_last (snd n)).                                       (* 397-399 *)

(** src/tree.rs lines 215-217 and 234-236, [Tree::first], [Tree::last]. *)
Definition tree_first {T} (t : tree T) := node_opt (t_nodes t) (t_first t).
Definition tree_last {T} (t : tree T) := node_opt (t_nodes t) (t_last t).

(** lines 508-518, [id]: the distance of the reference from the start of the
    slice in units of [size_of::<Links>] (never zero: five pointers), passed
    to [Pointer::new_unchecked].  Raw representation of the pointer: *)
Definition node_id_raw {T} (F : flavor) (n : node T) : N :=
  ptr_new_unchecked F (N.of_nat (fst n)).
(** .. and decoded, as pointers are everywhere else in the model. *)
Definition node_id {T} (F : flavor) (n : node T) : nat :=
  N.to_nat (ptr_get F (node_id_raw F n)).

(** lines 96-98, [replace]: [Cell::replace] on the shared table. *)
Definition node_replace {T} (nodes : list (links T)) (n : node T) (v : T)
  : list (links T) * T :=
  (upd nodes (fst n) (set_l_data v), node_value n).
Definition tree_replace {T} (t : tree T) (n : node T) (v : T) : tree T * T :=
  let '(ns, old) := node_replace (t_nodes t) n v in (set_t_nodes ns t, old).

(** lines 435-467, [find_preceding].  The predicate is an [FnMut]: it may keep a state [st] of any
    type between its calls.  (A predicate that calls [replace] on nodes changes values while the search
    runs; the search looks at links only, so that is not modelled.)  Step 1, lines 442-453: *)
Fixpoint find_up {T St} (fuel : nat) (nodes : list (links T)) (p : St -> node T -> St * bool)
  (st : St) (n : node T) : result (St * option (node T)) :=
  match fuel with
  | O => Diverge
  | S fuel =>
    let up st := match node_parent nodes n with
                 | None => Ok (st, None)
                 | Some m => find_up fuel nodes p st m
                 end in
    match node_prev nodes n with
    | None => up st
    | Some prev =>
        match p st prev with
        | (st, true) => Ok (st, Some prev)
        | (st, false) => up st
        end
    end
  end.
(** Step 2, lines 456-466: *)
Fixpoint find_down {T St} (fuel : nat) (nodes : list (links T)) (p : St -> node T -> St * bool)
  (st : St) (n : node T) : result (St * node T) :=
  match fuel with
  | O => Diverge
  | S fuel =>
    match node_last nodes n with
    | None => Ok (st, n)
    | Some last =>
        match p st last with
        | (st, true) => find_down fuel nodes p st last
        | (st, false) => Ok (st, n)
        end
    end
  end.
Definition find_preceding_mut {T St} (nodes : list (links T)) (p : St -> node T -> St * bool) (st : St) (n : node T)
  : result (St * option (node T)) :=
  match find_up (S (length nodes)) nodes p st n with
  | Ok (st, None) => Ok (st, None)
  | Ok (st, Some m) =>
      match find_down (S (length nodes)) nodes p st m with
      | Ok (st, r) => Ok (st, Some r)
      | Err e => Err e
      | Diverge => Diverge
      end
  | Err e => Err e
  | Diverge => Diverge
  end.
(** With a predicate that keeps no state. *)
Definition find_preceding {T} (nodes : list (links T)) (p : node T -> bool) (n : node T)
  : result (option (node T)) :=
  match find_preceding_mut nodes (fun _ m => (tt, p m)) tt n with
  | Ok (_, o) => Ok o
  | Err e => Err e
  | Diverge => Diverge
  end.
