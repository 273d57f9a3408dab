(** src/print.rs and src/macros.rs.  No proofs. *)
Set Implicit Arguments.
From Verif Require Import Base Pointer Index Tree Builder Hist Node Iter.

(** What follows the value and span on a printed line: nothing (line 148), the
    source text (line 150) or [+] (line 152). *)
Inductive tail (X : Type) := TNone | TText (x : X) | TPlus.
Arguments TNone {X}.
Arguments TText {X} _.
Arguments TPlus {X}.

(** One output line, before formatting: number of spaces, value, span, tail.
    The text of these lines is modelled in Render.v. *)
Record line (T X : Type) := Line {
  ln_indent : Z; ln_value : T; ln_span : span; ln_tail : tail X;
}.
Arguments Line {T X} _ _ _ _.

(** src/print.rs lines 142-154, the loop body. *)
Definition print_line {T X} (source : span -> option X) (x : Z * node T) : line T X :=
  let '(depth, n) := x in
  Line (depth * 2)%Z (node_value n) (node_span n)
    (if has_children n then TNone
     else match source (node_span n) with
          | Some s => TText s
          | None => TPlus
          end).

(** lines 132-157, [print_with_lookup], with a sink that does not fail. *)
Definition print_with_lookup {T X} (F : flavor) (t : tree T) (source : span -> option X)
  : result (list (line T X)) :=
  match iter_collect (S (tree_len t)) (walk_depths_next F (t_nodes t)) (tree_walk t) with
  | Ok (_, l) => Ok (map (print_line source) l)
  | Err e => Err e
  | Diverge => Diverge
  end.

(** lines 64-71, [print]. *)
Definition print {T X} (F : flavor) (t : tree T) : result (list (line T X)) :=
  print_with_lookup F t (fun _ => None).

(** lines 123-130, [print_with_source]: [str::get(range)].  The source is a list of
    bytes with [boundary i] telling the char boundaries. *)
Definition source_get {B} (boundary : N -> bool) (src : list B) (r : N * N) : option (list B) :=
  let '(s, e) := r in
  if (s <=? e)%N && (e <=? N.of_nat (length src))%N && boundary s && boundary e
  then Some (firstn (N.to_nat e - N.to_nat s) (skipn (N.to_nat s) src))
  else None.
Definition print_with_source {T B} (F : flavor) (t : tree T) (boundary : N -> bool) (src : list B)
  : result (list (line T (list B))) :=
  print_with_lookup F t (fun sp => source_get boundary src (span_range F sp)).

(** ** [tree!]: src/macros.rs lines 50-111.  The literal syntax ... *)
Inductive lit (T : Type) :=
| LEmpty (d : T)                                   (* value           71-78 *)
| LTok (d : T) (len : N)                           (* (value, len)    57-59, 66-69 *)
| LTokSpan (d : T) (sp : span)                     (* (value, (s, e)) 53-55, 61-64 *)
| LNode (d : T) (kids : list (lit T))              (* value => {..}   86-90, 99-104 *)
| LNodeSpan (d : T) (sp : span) (kids : list (lit T)). (* (value, (s, e)) => {..} 80-84, 92-97 *)
Arguments LEmpty {T} _.
Arguments LTok {T} _ _.
Arguments LTokSpan {T} _ _.
Arguments LNode {T} _ _.
Arguments LNodeSpan {T} _ _ _.

(** ... and the calls it expands to. *)
Fixpoint expand {T} (l : lit T) : list (op T) :=
  match l with
  | LEmpty d => [OTokenEmpty d]
  | LTok d len => [OToken d len]
  | LTokSpan d sp => [OTokenWith d sp]
  | LNode d kids => OOpen d :: flat_map expand kids ++ [OClose]
  | LNodeSpan d sp kids => OOpenWith d sp :: flat_map expand kids ++ [OClose]
  end.

(** Every call is followed by [?]: stop at the first error.  lines 106-110 and
    150-154 ([tree_with!]). *)
Fixpoint run_try {T} (F : flavor) (w : world T) (ops : list (op T)) : result (world T) :=
  match ops with
  | [] => Ok w
  | o :: ops =>
    match step F w o with
    | (w, RErr e) => Err e
    | (w, RDiverge) => Diverge
    | (w, _) => run_try F w ops
    end
  end.
Definition tree_macro {T} (F : flavor) (ls : list (lit T)) : result (tree T) :=
  match run_try F world_new (flat_map expand ls) with
  | Ok w => build (w_builder w)
  | Err e => Err e
  | Diverge => Diverge
  end.

(** ** [Debug]: src/tree.rs lines 607-630 ([Tree]: the entries of [walk().with_depths()]) and
    src/node/node_impl.rs lines 559-570 ([Node]: value and span).  One entry: depth, value, span; the
    text is modelled in Render.v. *)
Definition debug_node {T} (n : node T) : T * span := (node_value n, node_span n).
Definition debug_tree {T} (F : flavor) (t : tree T) : result (list (Z * (T * span))) :=
  match iter_collect (S (tree_len t)) (walk_depths_next F (t_nodes t)) (tree_walk t) with
  | Ok (_, l) => Ok (map (fun i => (fst i, debug_node (snd i))) l)
  | Err e => Err e
  | Diverge => Diverge
  end.
