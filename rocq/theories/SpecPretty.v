(** Specification: the alternate [Debug] text of a document, line by line. *)
Set Implicit Arguments.
From Coq Require Import Strings.String.
From Verif Require Import Base Index Tree Builder Hist Node Iter Print Render Spec SpecText.

(** A line that is indented by [n] times four spaces. *)
Definition indented (n : nat) (s : bytes) : bytes := repeat 32%N (4 * n) ++ s ++ [10%N].
(** A text whose further lines, if it has any, are moved to the right by [n] spaces. *)
Definition hang (n : nat) (s : bytes) : bytes := flat_map (fun c => if (c =? 10)%N then 10%N :: repeat 32%N n else [c]) s.
(** An index; a node, whose first line begins at column [4 * n] (the caller writes that first indentation). *)
Definition index_text (F : flavor) (i : N) : bytes := match fl_index F with IxEmpty => lit_bytes "Empty" | _ => decimal i end.
Definition node_lines {T} (F : flavor) (text : T -> bytes) (n : nat) (d : T) (sp : span) : bytes :=
  lit_bytes "Node {" ++ [10%N] ++
  indented (1 + n) (lit_bytes "data: " ++ hang (4 * (1 + n)) (text d) ++ lit_bytes ",") ++
  indented (1 + n) (lit_bytes "span: (") ++
  indented (2 + n) (index_text F (s_start sp) ++ lit_bytes ",") ++
  indented (2 + n) (index_text F (s_end sp) ++ lit_bytes ",") ++
  indented (1 + n) (lit_bytes "),") ++
  repeat 32%N (4 * n) ++ lit_bytes "}".
(** A node of the document at its depth. *)
Definition entry_lines {T} (F : flavor) (text : T -> bytes) (x : Z * rose T) : bytes :=
  let '(depth, Nd _ _ d sp _) := x in
  indented 2 (lit_bytes "(") ++
  indented 3 (decimal (Z.to_N depth) ++ lit_bytes ",") ++
  indented 3 (node_lines F text 3 d sp ++ lit_bytes ",") ++
  indented 2 (lit_bytes "),").
Definition entries_lines {T} (F : flavor) (text : T -> bytes) (items : list (Z * rose T)) : bytes :=
  indented 0 (lit_bytes "Tree(") ++
  match items with
  | [] => indented 1 (lit_bytes "[],")
  | xs => indented 1 (lit_bytes "[") ++ concat (map (entry_lines F text) xs) ++ indented 1 (lit_bytes "],")
  end ++ lit_bytes ")".
Definition pretty_text {T} (F : flavor) (text : T -> bytes) (l : list (rose T)) : bytes :=
  entries_lines F text (flat_map (preorder_depth 0) l).
