(** Specification of range queries. *)
From Verif Require Import Base Index Tree Builder Hist Node Iter Query Spec SpecEq.
Local Open Scope N_scope.

(** The contract of [slice::binary_search_by] on strictly ascending keys: [Ok] with the place of the
    key, or [Err] with the place where it belongs. *)
Fixpoint ascending (l : list (N * nat)) : Prop :=
  match l with
  | p :: l => match l with [] => True | q :: _ => fst p < fst q /\ ascending l end
  | [] => True
  end.
Definition meets_contract (bs : search) : Prop := forall l x, ascending l ->
  match bs l x with
  | inl n => exists id, nth_error l n = Some (x, id)
  | inr n => (n <= length l)%nat /\ (forall i k id, nth_error l i = Some (k, id) -> ((i < n)%nat -> k < x) /\ ((n <= i)%nat -> x < k))
  end.

(** From a node and its ancestors, nearest first: the first strict ancestor that ends at or after [e];
    without one, the root. *)
Inductive enclosing {T} (e : N) : list (rose T) -> rose T -> Prop :=
| enc_root x : enclosing e [x] x
| enc_here x y ch : e <= s_end (r_span y) -> enclosing e (x :: y :: ch) y
| enc_up x y ch r : s_end (r_span y) < e -> enclosing e (y :: ch) r -> enclosing e (x :: y :: ch) r.

(** The position belongs to the node. *)
Definition holds_pos {T} (s : N) (x : rose T) : Prop := s_start (r_span x) <= s < s_end (r_span x).

(** The same as a function of the document without identifiers: look for the childless node at [s]
    (with the nodes around it), then go up. *)
Fixpoint chains {T} (above : list (shape T)) (x : shape T) : list (list (shape T)) :=
  match x with
  | Sh _ _ [] => [x :: above]
  | Sh _ _ kids => flat_map (chains (x :: above)) kids
  end.
Definition sh_span {T} (x : shape T) : span := let 'Sh _ sp _ := x in sp.
Definition at_pos {T} (s : N) (ch : list (shape T)) : bool :=
  match ch with x :: _ => (s_start (sh_span x) <=? s) && (s <? s_end (sh_span x)) | [] => false end.
Fixpoint go_up {T} (e : N) (x : shape T) (ch : list (shape T)) : shape T :=
  match ch with
  | [] => x
  | y :: ch => if e <=? s_end (sh_span y) then y else go_up e y ch
  end.
Definition range_query {T} (l : list (shape T)) (s e : N) : option (shape T) :=
  match find (at_pos s) (flat_map (chains []) l) with
  | Some (x :: ch) => Some (go_up e x ch)
  | _ => None
  end.

(** Where a history files its tokens: a token that is not empty under its end, a token with a given span under the start of
    that.  [nodes]: the nodes of the document. *)
Definition makes_token {T} (o : op T) (r : out) : bool :=
  match o, r with OToken _ _, RNode _ | OTokenEmpty _, RNode _ | OTokenWith _ _, RNode _ => true | _, _ => false end.
Inductive files {T} (nodes : list (rose T)) : list (op T) -> list out -> list (N * nat) -> Prop :=
| files_nil : files nodes [] [] []
| files_token o x ops rs ks : (exists d len, o = OToken d len) \/ (exists d, o = OTokenEmpty d) -> In x nodes ->
    files nodes ops rs ks ->
    files nodes (o :: ops) (RNode (r_id x) :: rs) (if span_is_empty (r_span x) then ks else (s_end (r_span x), r_id x) :: ks)
| files_with d sp id ops rs ks : files nodes ops rs ks ->
    files nodes (OTokenWith d sp :: ops) (RNode id :: rs) ((s_start sp, id) :: ks)
| files_other o r ops rs ks : makes_token o r = false -> files nodes ops rs ks -> files nodes (o :: ops) (r :: rs) ks.

(** The filed node with the smallest key above [s]. *)
Definition next_filed (ks : list (N * nat)) (s : N) (id : nat) : Prop :=
  exists k, In (k, id) ks /\ s < k /\ forall k' id', In (k', id') ks -> s < k' -> k <= k'.
(** No span is turned around, among the nodes without children. *)
Definition forward_leaves {T} (l : list (rose T)) : Prop :=
  forall x, In x (preorder_list l) -> r_kids x = [] -> s_start (r_span x) <= s_end (r_span x).
(** The childless node that is not empty and starts first after [s]. *)
Definition starts_next {T} (l : list (rose T)) (s : N) (x : rose T) : Prop :=
  In x (preorder_list l) /\ r_kids x = [] /\ s < s_start (r_span x) < s_end (r_span x) /\
  forall y, In y (preorder_list l) -> r_kids y = [] -> s < s_start (r_span y) < s_end (r_span y) -> s_start (r_span x) <= s_start (r_span y).
