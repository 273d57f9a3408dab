(** Range queries and tree equality: src/tree.rs.  No proofs. *)
Set Implicit Arguments.
From Verif Require Import Base Pointer Index Tree Node Iter.

(** [slice::binary_search_by] as called on line 517: [inl n] is [Ok(n)],
    [inr n] is [Err(n)].  The standard library leaves open which of several
    equal elements is found, so queries take it as a parameter; theorems ask
    for the documented contract (Spec.v) and [std_search] is one algorithm
    meeting it. *)
Definition search := list (N * nat) -> N -> nat + nat.

(** The algorithm of the standard library (core::slice::binary_search_by):
    halve [size], keep [base]. *)
Fixpoint std_search_loop (fuel : nat) (l : list (N * nat)) (x : N) (base size : nat) : nat :=
  match fuel with
  | O => base
  | S fuel =>
    if Nat.leb size 1 then base
    else
      let half := Nat.div size 2 in
      let mid := base + half in
      let k := fst (nth mid l (0%N, 0)) in
      let base := if N.ltb x k then base else mid in
      std_search_loop fuel l x base (size - half)
  end.
Definition std_search : search := fun l x =>
  match l with
  | [] => inr 0
  | _ =>
    let base := std_search_loop (length l) l x 0 (length l) in
    let k := fst (nth base l (0%N, 0)) in
    if N.eqb k x then inl base
    else inr (if N.ltb k x then S base else base)
  end.

(** lines 526-532: climb until a parent ends at or after [end]. *)
Fixpoint climb {T} (fuel : nat) (nodes : list (links T)) (end_ : N) (n : node T)
  : result (node T) :=
  match fuel with
  | O => Diverge
  | S fuel =>
    match node_parent nodes n with
    | None => Ok n
    | Some parent =>
      if N.leb end_ (s_end (node_span parent)) then Ok parent
      else climb fuel nodes end_ parent
    end
  end.

(** lines 516-535, [node_with_span_internal].  [saturating_add(1)] is [S]: the
    position is below the length of a slice, hence below usize::MAX. *)
Definition node_with_span_internal {T} (bs : search) (t : tree T) (start end_ : N)
  : result (option (node T)) :=
  let n := match bs (t_indexes t) start with inl n => S n | inr n => n end in
  match nth_error (t_indexes t) n with
  | None => Ok None
  | Some (_, id) =>
    match tree_get t id with
    | None => Ok None
    | Some node =>
      match climb (S (tree_len t)) (t_nodes t) end_ node with
      | Ok r => Ok (Some r)
      | Err e => Err e
      | Diverge => Diverge
      end
    end
  end.

(** lines 512-514, [node_with_span]. *)
Definition node_with_span {T} (bs : search) (t : tree T) (sp : span) :=
  node_with_span_internal bs t (s_start sp) (s_end sp).

(** lines 405-409, [node_with_range]. *)
Definition node_with_range {T} (F : flavor) (bs : search) (t : tree T) (s e : N)
  : result (option (node T)) :=
  match ix_from_usize F s, ix_from_usize F e with
  | Some s, Some e => node_with_span_internal bs t s e
  | _, _ => Ok None
  end.

(** ** Equality: src/tree.rs lines 567-598; src/node/node_impl.rs lines 590-599.
    [eqT] is [T: PartialEq]; index comparison between flavors is equality of
    the numbers. *)
Definition node_eq {T} (eqT : T -> T -> bool) (a b : node T) : bool :=
  eqT (node_value a) (node_value b) && span_eqb (node_span a) (node_span b).

Definition item_eq {T} (eqT : T -> T -> bool) (a b : Z * node T) : bool :=
  Z.eqb (fst a) (fst b) && node_eq eqT (snd a) (snd b).

(** [Iterator::eq]: advance both, compare items, equal iff both end together. *)
Fixpoint iter_eq {S1 S2 A B : Type} (fuel : nat)
  (n1 : S1 -> result (S1 * option A)) (n2 : S2 -> result (S2 * option B))
  (eqi : A -> B -> bool) (s1 : S1) (s2 : S2) : result bool :=
  match fuel with
  | O => Diverge
  | S fuel =>
    match n1 s1 with
    | Ok (s1, None) =>
        match n2 s2 with
        | Ok (_, None) => Ok true
        | Ok (_, Some _) => Ok false
        | Err e => Err e
        | Diverge => Diverge
        end
    | Ok (s1, Some a) =>
        match n2 s2 with
        | Ok (_, None) => Ok false
        | Ok (s2, Some b) => if eqi a b then iter_eq fuel n1 n2 eqi s1 s2 else Ok false
        | Err e => Err e
        | Diverge => Diverge
        end
    | Err e => Err e
    | Diverge => Diverge
    end
  end.

Definition tree_eq {T} (FB FA : flavor) (eqT : T -> T -> bool) (self other : tree T)
  : result bool :=
  iter_eq (S (tree_len self))
    (walk_depths_next FB (t_nodes self)) (walk_depths_next FA (t_nodes other))
    (item_eq eqT) (tree_walk self) (tree_walk other).
