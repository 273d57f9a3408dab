(** The program benches/comparisons.rs: what it builds with syntree, and what it counts.  (The rowan halves and criterion's timing are not modelled.)
    No proofs. *)
Set Implicit Arguments.
From Verif Require Import Base Index Tree Builder Hist Node Iter Text ClientMath.

(** lines 6-14, [enum Syntax]. *)
Inductive bsyntax := BString | BEntry | BWhitespace | BRoot.

(** [Iterator::cycle] on a slice's iterator, of which [cur] is left, up to [n] elements; lines 46 and 89: [take], or [zip] behind a range. *)
Fixpoint cycled {A} (all cur : list A) (n : nat) : list A :=
  match n with
  | O => []
  | S n =>
    match cur with
    | x :: cur => x :: cycled all cur n
    | [] => match all with [] => [] | x :: cur => x :: cycled all cur n end
    end
  end.

(** lines 46-48. *)
Fixpoint build_loop (F : flavor) (ss : list str) (w : world bsyntax) : result (world bsyntax) :=
  match ss with
  | [] => Ok w
  | s :: ss => do w <- call F (OToken BString (str_len s)) w; build_loop F ss w
  end.
(** lines 38-52, [syntree_build].  ([usize] is converted to the flavor's length: itself, or nothing when it is [Empty]; the model's [token] does not
    look at a length in the latter case.) *)
Definition syntree_build (F : flavor) (strings : list str) (count : nat) : result (tree bsyntax) :=
  do (w, c) <- call_checkpoint F world_new;
  do w <- build_loop F (cycled strings strings count) w;
  do w <- call F (OCloseAt c BRoot) w;
  build (w_builder w).

(** lines 89-94. *)
Fixpoint tree_loop (F : flavor) (ss : list str) (w : world bsyntax) : result (world bsyntax) :=
  match ss with
  | [] => Ok w
  | s :: ss =>
    do w <- call F (OOpen BEntry) w;
    do w <- call F (OToken BString (str_len s)) w;
    do w <- call F OClose w;
    do w <- call F (OToken BWhitespace 1) w;
    tree_loop F ss w
  end.
(** lines 81-98, [syntree_tree]. *)
Definition syntree_tree (F : flavor) (n : nat) (strings : list str) : result (tree bsyntax) :=
  do (w, c) <- call_checkpoint F world_new;
  do w <- tree_loop F (cycled strings strings n) w;
  do w <- call F (OCloseAt c BRoot) w;
  build (w_builder w).

(** lines 160-163, 172, 180: [tree.first().unwrap()], then [root.children().count()].  [None]: a panic. *)
Definition count_of {S T} (fuel : nat) (nxt : S -> result (S * option (node T))) (s : S) : result nat :=
  match iter_collect fuel nxt s with Ok (_, l) => Ok (length l) | Err e => Err e | Diverge => Diverge end.
Definition count_children (t : tree bsyntax) : option (result nat) :=
  match tree_first t with
  | None => None
  | Some root => Some (count_of (loop_fuel (t_nodes t)) (total (children_next (t_nodes t))) (node_children root))
  end.
(** lines 199-205: [root.children().skip_tokens().count()]. *)
Definition count_nodes (t : tree bsyntax) : option (result nat) :=
  match tree_first t with
  | None => None
  | Some root =>
    Some (count_of (loop_fuel (t_nodes t)) (skip_next (loop_fuel (t_nodes t)) (total (children_next (t_nodes t)))) (node_children root))
  end.

(** lines 101-127: the flavors. *)
Definition bench_usize (m : N) : flavor := Flavor m IxUsize Usize SVec SVec.
Definition bench_u32 (m : N) : flavor := Flavor m IxUsize U32 SVec SVec.
Definition bench_u16 (m : N) : flavor := Flavor m IxU32 U16 SVec SVec.
Definition bench_empty (m : N) : flavor := Flavor m IxEmpty Usize SVec SEmptyVec.
Definition bench_default (m : N) : flavor := Flavor m IxU32 Usize SVec SVec.
(** line 131, [sizes]. *)
Definition bench_sizes : list nat := map N.to_nat [1024; 2048; 4096; 8192; 16384]%N.

(** ** [generate_random], lines 226-248, with any generator: a state, and what [gen::<usize>()] and [next_u32()] make of it. *)
(** What a run can end in. *)
Inductive ran (A : Type) := Ran (a : A) | Panic | Endless.
Arguments Ran {A} _. Arguments Panic {A}. Arguments Endless {A}.
(** [char::from_u32]. *)
Definition char_from_u32 (v : N) : option N :=
  if ((v <? 55296) || (57343 <? v) && (v <=? 1114111))%N then Some v else None.

Section Random.
Variable R : Type.
Variables (gen_usize next_u32 : R -> N * R).
(** lines 237-239. *)
Fixpoint fill (fuel : nat) (target : N) (r : R) (s : str) : ran (R * str) :=
  if (str_len s <? target)%N then
    match fuel with
    | O => Endless
    | S fuel =>
      let (v, r) := next_u32 r in
      fill fuel target r (match char_from_u32 v with Some c => if is_whitespace c then s else s ++ [c] | None => s end)
    end
  else Ran (r, s).
(** lines 233-242.  [s] is not cleared between the strings.  [max - min] panics when it overflows (benches are built without the checks; then
    [% _] or the assertion may panic), [%] when it is 0. *)
Fixpoint generate (fuel : nat) (min max : N) (count : nat) (r : R) (s : str) : ran (list str) :=
  match count with
  | O => Ran []
  | S count =>
    let (v, r) := gen_usize r in
    if (max <=? min)%N then Panic
    else
      let target := (v mod (max - min) + min)%N in
      if ((min <=? target) && (target <? max))%N then
        match fill fuel target r s with
        | Ran (r, s) =>
          match generate fuel min max count r s with
          | Ran l => Ran (s :: l)
          | Panic => Panic
          | Endless => Endless
          end
        | Panic => Panic
        | Endless => Endless
        end
      else Panic
  end.
Definition generate_random (fuel : nat) (count : nat) (min max : N) (r : R) : ran (list str) := generate fuel min max count r [].
End Random.
