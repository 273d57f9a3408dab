(** src/node/{children,siblings,ancestors,walk_events,walk,skip_tokens}.rs.
    No proofs.  [next(&mut self)] is a function from the iterator state to the
    new state and the item.  The slice [tree] kept inside each iterator is the
    argument [nodes]. *)
Set Implicit Arguments.
From Verif Require Import Base Pointer Index Tree Node.

(** ** Children: src/node/children.rs lines 72-80 *)
Record children_it := ChildrenIt { ch_first : option nat; ch_last : option nat }.

(** src/tree.rs lines 180-182; src/node/node_impl.rs lines 203-205;
    [Default]: src/node/children.rs lines 218-224. *)
Definition tree_children {T} (t : tree T) := ChildrenIt (t_first t) (t_last t).
Definition node_children {T} (n : node T) := ChildrenIt (l_first (snd n)) (l_last (snd n)).
Definition children_default := ChildrenIt None None.

(** lines 160-169, [next]. *)
Definition children_next {T} (nodes : list (links T)) (c : children_it)
  : children_it * option (node T) :=
  match ch_first c with
  | None => (c, None)
  | Some first =>
    let c := ChildrenIt None (ch_last c) in
    match nth_error nodes first with
    | None => (c, None)
    | Some l =>
      match ch_last c with
      | None => (c, None)
      | Some last =>
        let c := if Nat.eqb first last then c else ChildrenIt (l_next l) (ch_last c) in
        (c, Some (first, l))
      end
    end
  end.

(** lines 178-187, [next_back]. *)
Definition children_next_back {T} (nodes : list (links T)) (c : children_it)
  : children_it * option (node T) :=
  match ch_last c with
  | None => (c, None)
  | Some last =>
    let c := ChildrenIt (ch_first c) None in
    match nth_error nodes last with
    | None => (c, None)
    | Some l =>
      match ch_first c with
      | None => (c, None)
      | Some first =>
        let c := if Nat.eqb last first then c else ChildrenIt (ch_first c) (l_prev l) in
        (c, Some (last, l))
      end
    end
  end.

(** ** Siblings: src/node/siblings.rs lines 65-72, 156-160 *)
Definition siblings_it (T : Type) : Type := option (node T).
Definition node_siblings {T} (n : node T) : siblings_it T := Some n.
Definition siblings_next {T} (nodes : list (links T)) (s : siblings_it T)
  : siblings_it T * option (node T) :=
  match s with
  | None => (None, None)
  | Some n => (node_opt nodes (l_next (snd n)), Some n)
  end.

(** ** Ancestors: src/node/ancestors.rs lines 49-55, 126-130 *)
Definition ancestors_it (T : Type) : Type := option (node T).
Definition node_ancestors {T} (n : node T) : ancestors_it T := Some n.
Definition ancestors_next {T} (nodes : list (links T)) (s : ancestors_it T)
  : ancestors_it T * option (node T) :=
  match s with
  | None => (None, None)
  | Some n => (node_parent nodes n, Some n)
  end.

(** ** WalkEvents: src/node/walk_events.rs lines 12-20, 139-150 *)
Inductive event := Next | Down | Up.

Record walk_it := WalkIt { wk_node : option (nat * event); wk_depth : Z }.

(** lines 159-169, [new]; 223-229, [default] (whose slice is empty; as
    [node] is [None] the slice is never read). *)
Definition walk_new (start : option nat) (e : event) : walk_it :=
  WalkIt (option_map (fun n => (n, e)) start) 0.
Definition walk_default : walk_it := WalkIt None 0.

(** [isize::checked_add(1)] and [checked_sub(1)]. *)
Definition isize_inc (F : flavor) (z : Z) : option Z :=
  if (z + 1 <=? isize_max F)%Z then Some (z + 1)%Z else None.
Definition isize_dec (F : flavor) (z : Z) : option Z :=
  if (- isize_max F - 1 <=? z - 1)%Z then Some (z - 1)%Z else None.

(** lines 177-199, [step]: the new depth and the next position. *)
Definition walk_step {T} (F : flavor) (l : links T) (e : event) (depth : Z)
  : Z * option (nat * event) :=
  let up :=                                                   (* 197-198 *)
    match isize_dec F depth with
    | None => (depth, None)
    | Some d => (d, match l_parent l with Some p => Some (p, Up) | None => None end)
    end in
  let next_or_up :=
    match l_next l with
    | Some n => (depth, Some (n, Next))
    | None => up
    end in
  match e with
  | Up => next_or_up                                          (* 182-185 *)
  | Next | Down =>
    match l_first l with                                      (* 187-194 *)
    | Some first =>
      match isize_inc F depth with
      | None => (depth, None)
      | Some d => (d, Some (first, Down))
      end
    | None => next_or_up
    end
  end.

(** lines 239-245, [next]. *)
Definition walk_events_next {T} (F : flavor) (nodes : list (links T)) (w : walk_it)
  : walk_it * option (event * node T) :=
  match wk_node w with
  | None => (w, None)
  | Some (id, e) =>
    match nth_error nodes id with
    | None => (WalkIt None (wk_depth w), None)
    | Some l =>
      let '(d, pos) := walk_step F l e (wk_depth w) in
      (WalkIt pos d, Some (e, (id, l)))
    end
  end.

(** Entry points.  src/tree.rs lines 188-190, 196-198;
    src/node/node_impl.rs lines 212-214, 222-224, 231-233. *)
Definition tree_walk {T} (t : tree T) : walk_it := walk_new (t_first t) Next.
Definition node_walk {T} (F : flavor) (n : node T) : walk_it := walk_new (Some (node_id F n)) Next.
Definition node_walk_from {T} (F : flavor) (n : node T) : walk_it := walk_new (Some (node_id F n)) Up.

(** ** Walk, WithDepths, Inside: src/node/walk.rs.  The [loop]s take fuel. *)

(** lines 259-267, [Walk::next]. *)
Fixpoint walk_loop {T} (fuel : nat) (F : flavor) (nodes : list (links T)) (w : walk_it)
  : result (walk_it * option (node T)) :=
  match fuel with
  | O => Diverge
  | S fuel =>
    match walk_events_next F nodes w with
    | (w, None) => Ok (w, None)
    | (w, Some (Up, _)) => walk_loop fuel F nodes w
    | (w, Some (_, n)) => Ok (w, Some n)
    end
  end.

(** lines 213-222, [Walk::next_with_depth], and 340-349, [WithDepths::next]. *)
Fixpoint walk_depths_loop {T} (fuel : nat) (F : flavor) (nodes : list (links T)) (w : walk_it)
  : result (walk_it * option (Z * node T)) :=
  match fuel with
  | O => Diverge
  | S fuel =>
    let depth := wk_depth w in
    match walk_events_next F nodes w with
    | (w, None) => Ok (w, None)
    | (w, Some (Up, _)) => walk_depths_loop fuel F nodes w
    | (w, Some (_, n)) => Ok (w, Some (depth, n))
    end
  end.

(** lines 436-448, [Inside::next]. *)
Fixpoint inside_loop {T} (fuel : nat) (F : flavor) (nodes : list (links T)) (w : walk_it)
  : result (walk_it * option (node T)) :=
  match fuel with
  | O => Diverge
  | S fuel =>
    match walk_events_next F nodes w with
    | (w, None) => Ok (w, None)
    | (w, Some (e, n)) =>
      let w := if (wk_depth w <=? 0)%Z then walk_default else w in
      match e with
      | Up => inside_loop fuel F nodes w
      | _ => Ok (w, Some n)
      end
    end
  end.

(** Fuel: more loop rounds than there are nodes.  Iter theorems show it is never exhausted. *)
Definition loop_fuel {T} (nodes : list (links T)) : nat := S (S (length nodes)).
Definition walk_next {T} F (nodes : list (links T)) w := walk_loop (loop_fuel nodes) F nodes w.
Definition walk_depths_next {T} F (nodes : list (links T)) w :=
  walk_depths_loop (loop_fuel nodes) F nodes w.
Definition inside_next {T} F (nodes : list (links T)) w := inside_loop (loop_fuel nodes) F nodes w.

(** ** [Iterator::find] as used by [next_node] (children.rs 147-149, siblings.rs
    143-145, ancestors.rs 113-115) and by [SkipTokens] (skip_tokens.rs lines
    92-94, 103-109; 119-121, 124-130 from the back): call [next] until an item
    satisfies the predicate or [None] is returned.  [nxt] is the [next] (or
    [next_back]) of the underlying iterator. *)
Fixpoint iter_find {S A : Type} (fuel : nat) (nxt : S -> result (S * option A))
  (p : A -> bool) (s : S) : result (S * option A) :=
  match fuel with
  | O => Diverge
  | Datatypes.S fuel =>
    match nxt s with
    | Ok (s, None) => Ok (s, None)
    | Ok (s, Some a) => if p a then Ok (s, Some a) else iter_find fuel nxt p s
    | Err e => Err e
    | Diverge => Diverge
    end
  end.

Definition total {S A} (nxt : S -> S * option A) : S -> result (S * option A) :=
  fun s => Ok (nxt s).

(** [SkipTokens::next], generic in the underlying iterator. *)
Definition skip_next {S T : Type} (fuel : nat) (nxt : S -> result (S * option (node T)))
  : S -> result (S * option (node T)) :=
  iter_find fuel nxt (fun n => has_children n).

(** [SkipTokens::find], lines 103-109. *)
Definition skip_find {S T : Type} (fuel : nat) (nxt : S -> result (S * option (node T)))
  (p : node T -> bool) : S -> result (S * option (node T)) :=
  iter_find fuel nxt (fun n => has_children n && p n).

(** [SkipTokens::rfind], lines 124-130, with the [rfind] of [DoubleEndedIterator]: [next_back] until the predicate holds. *)
Definition skip_rfind {S T : Type} (fuel : nat) (nxt_back : S -> result (S * option (node T)))
  (p : node T -> bool) : S -> result (S * option (node T)) :=
  iter_find fuel nxt_back (fun n => has_children n && p n).

(** [SkipTokens::size_hint], lines 97-100, from the hint of the underlying iterator; those of this crate have the
    default of [Iterator], [(0, None)]. *)
Definition size_hint_default : N * option N := (0%N, None).
Definition skip_size_hint (hint : N * option N) : N * option N := let '(_, upper) := hint in (0%N, upper).

(** A [for] loop / [collect]: items until the first [None], with the final
    state. *)
Fixpoint iter_collect {S A : Type} (fuel : nat) (nxt : S -> result (S * option A)) (s : S)
  : result (S * list A) :=
  match fuel with
  | O => Diverge
  | Datatypes.S fuel =>
    match nxt s with
    | Ok (s, None) => Ok (s, [])
    | Ok (s, Some a) =>
        match iter_collect fuel nxt s with
        | Ok (s, l) => Ok (s, a :: l)
        | Err e => Err e
        | Diverge => Diverge
        end
    | Err e => Err e
    | Diverge => Diverge
    end
  end.
