(** Specification for the Empty flavor: runs in two flavors that differ in what they say about
    positions. *)
From Verif Require Import Base Index Tree Builder Hist Node Iter Query Spec.

(** The same call with the same value; lengths, spans and cursor positions are left open (the Empty
    flavor has only one of each). *)
Inductive same_but_positions {T} : op T -> op T -> Prop :=
| sp_open d : same_but_positions (OOpen d) (OOpen d)
| sp_open_with d sp sp' : same_but_positions (OOpenWith d sp) (OOpenWith d sp')
| sp_close : same_but_positions OClose OClose
| sp_token d len len' : same_but_positions (OToken d len) (OToken d len')
| sp_token_empty d : same_but_positions (OTokenEmpty d) (OTokenEmpty d)
| sp_token_with d sp sp' : same_but_positions (OTokenWith d sp) (OTokenWith d sp')
| sp_checkpoint : same_but_positions OCheckpoint OCheckpoint
| sp_close_at k d : same_but_positions (OCloseAt k d) (OCloseAt k d)
| sp_close_at_with k d sp sp' : same_but_positions (OCloseAtWith k d sp) (OCloseAtWith k d sp')
| sp_set_cursor i i' : same_but_positions (OSetCursor i) (OSetCursor i').

(** What a caller can see of a node but for its span: identifier, value, and the identifiers of the
    nodes around it. *)
Definition ident {T} (o : option (node T)) : option (nat * T) :=
  option_map (fun n => (fst n, node_value n)) o.
Definition neighbours {T} (t : tree T) (n : node T) : list (option (nat * T)) :=
  [ident (node_parent (t_nodes t) n); ident (node_prev (t_nodes t) n); ident (node_next (t_nodes t) n);
   ident (node_first (t_nodes t) n); ident (node_last (t_nodes t) n)].

(** Two trees with the same structure: the same nodes with the same values, linked in the same way. *)
Definition same_structure {T} (t u : tree T) : Prop :=
  tree_len t = tree_len u /\ ident (tree_first t) = ident (tree_first u) /\ ident (tree_last t) = ident (tree_last u) /\
  forall id,
    ident (tree_get t id) = ident (tree_get u id) /\
    option_map (neighbours t) (tree_get t id) = option_map (neighbours u) (tree_get u id).

(** A document without its spans, as a term: kind, identifier, value, children. *)
Inductive outline (T : Type) := Outline (id : nat) (k : kind) (d : T) (kids : list (outline T)).
Arguments Outline {T} _ _ _ _.
Fixpoint unspan {T} (x : rose T) : outline T :=
  match x with Nd i k d _ kids => Outline i k d (map unspan kids) end.

(** What the documentation of [slice::binary_search_by] promises on keys in (not necessarily strict)
    order: any one of the matches, or the place where the key belongs. *)
Fixpoint sorted_keys (l : list (N * nat)) : Prop :=
  match l with
  | p :: l => match l with [] => True | q :: _ => (fst p <= fst q)%N /\ sorted_keys l end
  | [] => True
  end.
Definition documented_search (bs : search) : Prop := forall l x, sorted_keys l ->
  match bs l x with
  | inl n => exists id, nth_error l n = Some (x, id)
  | inr n => (n <= length l)%nat /\
      forall i k id, nth_error l i = Some (k, id) -> ((i < n)%nat -> (k < x)%N) /\ ((n <= i)%nat -> (x < k)%N)
  end.
