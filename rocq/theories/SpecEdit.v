(** Specification of edits (src/edit.rs). *)
From Verif Require Import Base Index Tree Builder Hist Node Iter Edit Spec SpecSpan SpecMap.

(** A tree shows the document [l]: as many nodes, the same walk with depths, and from every node the
    right neighbours.  (For trees that do not come from a builder.) *)
Definition presents {T} (F : flavor) (t : tree T) (l : list (rose T)) : Prop :=
  tree_len t = length (preorder_list l) /\
  (exists items, enumerates (walk_depths_next F (t_nodes t)) (tree_walk t) items /\
    map (fun i => (fst i, view (snd i))) items = map (fun i => (fst i, rview (snd i))) (flat_map (preorder_depth 0) l)) /\
  answers (tree_first t) (hd_error l) /\ answers (tree_last t) (last_error l) /\
  (forall p s1 x s2, In (p, s1 ++ x :: s2) (sibling_lists l) ->
    exists n, tree_get t (r_id x) = Some n /\ view n = rview x /\
      answers (node_parent (t_nodes t) n) p /\
      answers (node_prev (t_nodes t) n) (last_error s1) /\
      answers (node_next (t_nodes t) n) (hd_error s2) /\
      answers (node_first (t_nodes t) n) (hd_error (r_kids x)) /\
      answers (node_last (t_nodes t) n) (last_error (r_kids x))).

Local Open Scope N_scope.

(** How far a span reaches; none when it is empty or turned around. *)
Definition width (sp : span) : N := s_end sp - s_start sp.

(** The copies that [modify] makes: same values, same shape; a childless node is as wide as it
    was and starts where the one before it ended; a node with children starts in the right place, but it
    ends where its last child ended or, when that child has children itself, where it started. *)
Definition reach {T} (x : rose T) : N :=
  match r_kids x with [] => s_end (r_span x) | _ => s_start (r_span x) end.
Definition last_reach {T} (s : N) (l : list (rose T)) : N :=
  match last_error l with None => s | Some y => reach y end.

Inductive copied {T} : N -> rose T -> rose T -> N -> Prop :=
| cp_leaf s i k d sp i' k' :
    copied s (Nd i k d sp []) (Nd i' k' d (Span s (s + width sp)) []) (s + width sp)
| cp_node s e i k d sp x kids i' k' kids' :
    copied_list s (x :: kids) kids' e ->
    copied s (Nd i k d sp (x :: kids)) (Nd i' k' d (Span s (last_reach s kids')) kids') e
with copied_list {T} : N -> list (rose T) -> list (rose T) -> N -> Prop :=
| cp_nil s : copied_list s [] [] s
| cp_cons s m e x x' l l' : copied s x x' m -> copied_list m l l' e -> copied_list s (x :: l) (x' :: l') e.

(** What [modify] does with any set of changes [c].  [c] is asked for the number of the node about to
    be *made*.  [edited c top forced n s xs xs' n' s' up]: the siblings [xs] (the roots if [top])
    become [xs'], numbered from [n] to [n'], and placed from [s] to [s'].  [forced]: the first of them is
    not looked up.  [up]: the last of them was skipped, and their parent will be made once more, with all its
    children. *)
Inductive edited {T} (c : changeset) : bool -> bool -> nat -> N -> list (rose T) -> list (rose T) -> nat -> N -> bool -> Prop :=
| ed_nil top forced n s : edited c top forced n s [] [] n s false
| ed_leaf top forced n s i k d sp xs xs' n2 s2 up :
    forced = true \/ changed c n = false ->
    edited c top false (S n) (s + width sp) xs xs' n2 s2 up ->
    edited c top forced n s (Nd i k d sp [] :: xs) (Nd n KLeaf d (Span s (s + width sp)) [] :: xs') n2 s2 up
| ed_node top forced n s i k d sp y kids kids' n1 s1 xs xs' n2 s2 up :
    forced = true \/ changed c n = false ->
    edited c false false (S n) s (y :: kids) kids' n1 s1 false ->
    edited c top false n1 s1 xs xs' n2 s2 up ->
    edited c top forced n s (Nd i k d sp (y :: kids) :: xs) (Nd n KOpen d (Span s (last_reach s kids')) kids' :: xs') n2 s2 up
| ed_again top forced n s i k d sp y kids kids' n1 s1 xs xs' n2 s2 up :
    forced = true \/ changed c n = false ->
    edited c false false (S n) s (y :: kids) kids' n1 s1 true ->
    edited c top true n1 s1 (Nd i k d sp (y :: kids) :: xs) xs' n2 s2 up ->
    edited c top forced n s (Nd i k d sp (y :: kids) :: xs) (Nd n KOpen d (Span s (last_reach s kids')) kids' :: xs') n2 s2 up
| ed_skip top n s x y xs out n2 s2 up :
    changed c n = true -> edited c top true n s (y :: xs) out n2 s2 up ->
    edited c top false n s (x :: y :: xs) out n2 s2 up
| ed_last n s x : changed c n = true -> edited c true false n s [x] [] n s false
| ed_up n s x : changed c n = true -> edited c false false n s [x] [] n s true.

(** The change set after [remove] was called with these identifiers, in this order. *)
Definition removals (ids : list nat) : changeset := fold_left (fun c i => changeset_remove i c) ids changeset_new.

(** The document without the node [k] and its subtree. *)
Fixpoint without {T} (k : nat) (x : rose T) : list (rose T) :=
  match x with
  | Nd i kd d sp kids => if Nat.eqb i k then [] else [Nd i kd d sp (flat_map (without k) kids)]
  end.

(** Identifiers count the nodes in walk order. *)
Definition in_order {T} (l : list (rose T)) : Prop :=
  map r_id (preorder_list l) = seq 0 (length (preorder_list l)).

(** Numbered from [n] on. *)
Definition numbered {T} (n : nat) (l : list (rose T)) : Prop :=
  map r_id (preorder_list l) = seq n (length (preorder_list l)).

(** The widths of the childless nodes, together. *)
Definition total_width {T} (l : list (rose T)) : N :=
  fold_right (fun x s => width (r_span x) + s) 0 (filter (fun x => negb (has_kids x)) (preorder_list l)).

(** Identifiers are values of the pointer type. *)
Definition pointers (F : flavor) (c : changeset) : Prop :=
  forall i, In i c -> N.of_nat i < int_max F (fl_width F).

(** Trees that come from a builder (called with values of the Rust types), after any number of calls of
    [modify] and [replace] in any order. *)
Inductive made {T} (F : flavor) : tree T -> list (rose T) -> Prop :=
| made_built ops t l : vec_flavor F -> document F ops l -> builds F ops t -> Forall (op_wf F) ops -> made F t l
| made_modified fuel c t l t' l' n s : made F t l -> pointers F c ->
    edited c true false 0 0 l l' n s false -> modify fuel F c t = Ok t' -> made F t' l'
| made_replaced t l i n v t' old : made F t l -> tree_get t i = Some n -> tree_replace t n v = (t', old) ->
    made F t' (map (set_value i v) l).

(** The removed node is a root or has a later sibling. *)
Definition has_successor {T} (k : nat) (l : list (rose T)) : Prop :=
  exists p s1 x s2, In (p, s1 ++ x :: s2) (sibling_lists l) /\ r_id x = k /\ (p = None \/ s2 <> []).

(** Two documents that differ only in where nodes with children end. *)
Inductive alike_but_ends {T} : rose T -> rose T -> Prop :=
| abe_leaf i i' k k' d sp : alike_but_ends (Nd i k d sp []) (Nd i' k' d sp [])
| abe_node i i' k k' d s e e' x x' kids kids' : alike_but_ends x x' -> Forall2 alike_but_ends kids kids' ->
    alike_but_ends (Nd i k d (Span s e) (x :: kids)) (Nd i' k' d (Span s e') (x' :: kids')).

Definition is_close_at {T} (o : op T) : bool :=
  match o with OCloseAt _ _ | OCloseAtWith _ _ _ => true | _ => false end.
