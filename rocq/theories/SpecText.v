(** Specification: the text of a printed document. *)
Set Implicit Arguments.
From Coq Require Import Strings.String.
From Verif Require Import Base Index Tree Builder Hist Node Iter Print Render Spec SpecEq.

(** The tree has the nodes of the document and a walk with depths goes through them: true of finished
    trees and of the results of [modify]. *)
Definition shows {T} (F : flavor) (t : tree T) (l : list (rose T)) : Prop :=
  tree_len t = length (preorder_list l) /\
  exists items, enumerates (walk_depths_next F (t_nodes t)) (tree_walk t) items /\
    map (fun i => (fst i, view (snd i))) items = map (fun i => (fst i, rview (snd i))) (flat_map (preorder_depth 0) l).

(** Decimal notation: what the digits say; digits only, at least one; no needless zero in front. *)
Definition says (s : bytes) : N := fold_left (fun v c => 10 * v + (c - 48))%N s 0%N.
Definition numeral (n : N) (s : bytes) : Prop :=
  says s = n /\ s <> [] /\ Forall (fun c => 48 <= c <= 57)%N s /\ (forall c r, s = 48%N :: c :: r -> False).

(** The line of a node: two spaces for each level, the value, an at-sign, the span; then what the source
    shows, or a plus, if the node has no children. *)
Definition line_text {T X} (source : span -> option X) (debug : T -> bytes) (quote : X -> bytes) (x : Z * rose T) : bytes :=
  let '(depth, Nd _ _ d sp kids) := x in
  repeat 32%N (2 * Z.to_nat depth) ++ debug d ++ lit_bytes "@" ++
  decimal (s_start sp) ++ lit_bytes ".." ++ decimal (s_end sp) ++
  match kids with
  | [] => match source sp with Some s => lit_bytes " " ++ quote s | None => lit_bytes " +" end
  | _ => []
  end ++ [10%N].
(** The lines of a document: those of a node's children after its own, one level deeper. *)
Definition doc_text {T X} (source : span -> option X) (debug : T -> bytes) (quote : X -> bytes) (l : list (rose T)) : bytes :=
  concat (map (line_text source debug quote) (flat_map (preorder_depth 0) l)).

(** The nodes before the first one that is indented by more than the limit. *)
Fixpoint shallow {T} (limit : option N) (l : list (Z * rose T)) : list (Z * rose T) :=
  match l with
  | [] => []
  | x :: l => match limit with
              | None => x :: shallow limit l
              | Some m => if (2 * fst x <=? Z.of_N m)%Z then x :: shallow limit l else []
              end
  end.

(** A value's text is told apart from another's once the byte [c] follows. *)
Definition told_by {A} (c : N) (text : A -> bytes) : Prop :=
  forall a b r r', text a ++ c :: r = text b ++ c :: r' -> a = b.

(** The text of a document as [Debug] gives it. *)
Definition entry_text {T} (F : flavor) (debug : T -> bytes) (x : Z * rose T) : bytes :=
  let '(depth, Nd _ _ d sp _) := x in
  let ix i := match fl_index F with IxEmpty => lit_bytes "Empty" | _ => decimal i end in
  lit_bytes "(" ++ decimal (Z.to_N depth) ++ lit_bytes ", Node { data: " ++ debug d ++
  lit_bytes ", span: (" ++ ix (s_start sp) ++ lit_bytes ", " ++ ix (s_end sp) ++ lit_bytes ") })".
Definition entries_text {T} (F : flavor) (debug : T -> bytes) (items : list (Z * rose T)) : bytes :=
  lit_bytes "Tree([" ++
  match map (entry_text F debug) items with
  | [] => []
  | x :: xs => x ++ concat (map (fun y => lit_bytes ", " ++ y) xs)
  end ++ lit_bytes "])".
Definition debug_text {T} (F : flavor) (debug : T -> bytes) (l : list (rose T)) : bytes :=
  entries_text F debug (flat_map (preorder_depth 0) l).
