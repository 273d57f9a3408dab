(** Specification: what the builder calls mean, in terms of plain trees.

    Nothing here knows about link tables, sibling pointers, heaps or cells.  The
    document under construction is a zipper: the finished siblings at the
    current level, and the stack of open nodes around it. *)
Set Implicit Arguments.
From Verif Require Import Base Index Tree Builder Hist Node Iter.

(** ** Documents *)

(** How a node came to be: by [token*] (or a [close_at] with nothing to wrap),
    by [open*], or by a [close_at*] that wrapped existing siblings. *)
Inductive kind := KLeaf | KOpen | KWrap.

Inductive rose (T : Type) :=
  Nd (id : nat) (k : kind) (d : T) (sp : span) (kids : list (rose T)).
Arguments Nd {T} _ _ _ _ _.

Definition r_id {T} (t : rose T) := let 'Nd i _ _ _ _ := t in i.
Definition r_kind {T} (t : rose T) := let 'Nd _ k _ _ _ := t in k.
Definition r_data {T} (t : rose T) := let 'Nd _ _ d _ _ := t in d.
Definition r_span {T} (t : rose T) := let 'Nd _ _ _ s _ := t in s.
Definition r_kids {T} (t : rose T) := let 'Nd _ _ _ _ l := t in l.

(** All nodes of a tree in document order (pre-order). *)
Fixpoint preorder {T} (t : rose T) : list (rose T) :=
  match t with Nd _ _ _ _ kids => t :: flat_map preorder kids end.
Definition preorder_list {T} (l : list (rose T)) : list (rose T) := flat_map preorder l.

(** The same, each node with its depth. *)
Fixpoint preorder_depth {T} (dp : Z) (t : rose T) : list (Z * rose T) :=
  match t with Nd _ _ _ _ kids => (dp, t) :: flat_map (preorder_depth (dp + 1)) kids end.

(** The trace of a depth-first traversal: every node is entered ([Down] for a
    first child, [Next] for a later sibling) and a node with children is left
    again ([Up]) after its last child. *)
Fixpoint events {T} (e : event) (x : rose T) : list (event * rose T) :=
  match x with
  | Nd _ _ _ _ [] => [(e, x)]
  | Nd _ _ _ _ (k :: ks) => (e, x) :: events Down k ++ flat_map (events Next) ks ++ [(Up, x)]
  end.
Definition events_list {T} (l : list (rose T)) : list (event * rose T) :=
  flat_map (events Next) l.

(** ** Documents under construction *)

(** An open node and the finished siblings before it. *)
Record frame (T : Type) := Frame {
  f_id : nat; f_data : T; f_span : span; f_left : list (rose T);
}.
Arguments f_id {T} _. Arguments f_data {T} _. Arguments f_span {T} _. Arguments f_left {T} _.
Arguments Frame {T} _ _ _ _.

(** A checkpoint denotes a position between siblings at some level (the level is
    named by its open node).  It is gone once an earlier checkpoint of the same
    level has been used to wrap the place it denotes. *)
Inductive mark := MAt (level : option nat) (pos : nat) | MGone (level : option nat).
Definition mark_level (m : mark) :=
  match m with MAt l _ => l | MGone l => l end.

Record doc (T : Type) := Doc {
  a_cur : list (rose T);         (* finished siblings at the current level *)
  a_open : list (frame T);       (* open nodes, innermost first *)
  a_n : nat;                     (* nodes so far *)
  a_cursor : N;
  a_span : span;                 (* span of the tree *)
  a_index : list (N * nat);      (* index of tokens for range queries *)
  a_marks : list mark;           (* checkpoints handed out *)
}.
Arguments a_cur {T} _. Arguments a_open {T} _. Arguments a_n {T} _. Arguments a_cursor {T} _. Arguments a_span {T} _. Arguments a_index {T} _. Arguments a_marks {T} _.
Arguments Doc {T} _ _ _ _ _ _ _.

Definition doc_new {T} : doc T := Doc [] [] 0 0%N (Span 0 0) [] [].

Definition level {T} (l : list (frame T)) : option nat :=
  match l with [] => None | f :: _ => Some (f_id f) end.

(** The pointer width allows no further node. *)
Definition full {T} (F : flavor) (a : doc T) : bool :=
  N.leb (int_max F (fl_width F)) (N.of_nat (a_n a)).

(** Adding a node to the level of [f] sets the end of [f]'s span. *)
Definition touch {T} (e : N) (l : list (frame T)) : list (frame T) :=
  match l with
  | [] => []
  | f :: fs => Frame (f_id f) (f_data f) (set_end (f_span f) e) (f_left f) :: fs
  end.
Definition widen {T} (sp : span) (l : list (frame T)) : list (frame T) :=
  match l with
  | [] => []
  | f :: fs => Frame (f_id f) (f_data f) (span_join (f_span f) sp) (f_left f) :: fs
  end.

Definition a_leaf {T} (d : T) (sp : span) (a : doc T) : doc T :=
  Doc (a_cur a ++ [Nd (a_n a) KLeaf d sp []]) (touch (s_end sp) (a_open a)) (S (a_n a))
      (a_cursor a) (a_span a) (a_index a) (a_marks a).

Definition a_open_with {T} (F : flavor) (d : T) (sp : span) (a : doc T) : doc T * out :=
  if full F a then (a, RErr Overflow)
  else (Doc [] (Frame (a_n a) d sp (a_cur a) :: touch (s_end sp) (a_open a)) (S (a_n a))
            (a_cursor a) (a_span a) (a_index a) (a_marks a), RNode (a_n a)).

Definition a_close {T} (a : doc T) : doc T * out :=
  match a_open a with
  | [] => (a, RErr CloseError)
  | f :: fs =>
    (Doc (f_left f ++ [Nd (f_id f) KOpen (f_data f) (f_span f) (a_cur a)])
         (widen (f_span f) fs) (a_n a) (s_end (f_span f)) (a_span a) (a_index a) (a_marks a),
     RUnit)
  end.

Definition push_index {T} (F : flavor) (ix : N) (id : nat) (a : doc T) : doc T :=
  Doc (a_cur a) (a_open a) (a_n a) (a_cursor a) (a_span a)
      (match fl_indexes F with SEmptyVec => a_index a | _ => a_index a ++ [(ix, id)] end)
      (a_marks a).
Definition move {T} (c : N) (a : doc T) : doc T :=
  Doc (a_cur a) (a_open a) (a_n a) c (a_span a) (a_index a) (a_marks a).
Definition stretch {T} (e : N) (a : doc T) : doc T :=
  Doc (a_cur a) (a_open a) (a_n a) (a_cursor a) (set_end (a_span a) e) (a_index a) (a_marks a).

(** A token that does not fit the pointer width is refused, but if it is not
    empty the cursor and the tree span have moved (see C13). *)
Definition a_token {T} (F : flavor) (d : T) (len : N) (a : doc T) : doc T * out :=
  if len_is_empty F len then
    if full F a then (a, RErr Overflow)
    else (a_leaf d (Span (a_cursor a) (a_cursor a)) a, RNode (a_n a))
  else
    match ix_checked_add_len F (a_cursor a) len with
    | None => (a, RErr Overflow)
    | Some c =>
      let a' := stretch c (move c a) in
      if full F a then (a', RErr Overflow)
      else (push_index F c (a_n a) (a_leaf d (Span (a_cursor a) c) a'), RNode (a_n a))
    end.

Definition a_token_with {T} (F : flavor) (d : T) (sp : span) (a : doc T) : doc T * out :=
  if full F a then (a, RErr Overflow)
  else
    let a' := push_index F (s_start sp) (a_n a) (a_leaf d sp a) in
    (Doc (a_cur a') (widen sp (a_open a')) (a_n a') (s_end sp) (a_span a') (a_index a')
         (a_marks a'), RNode (a_n a)).

Definition a_checkpoint {T} (F : flavor) (a : doc T) : doc T * out :=
  if full F a then (a, RErr Overflow)
  else (Doc (a_cur a) (a_open a) (a_n a) (a_cursor a) (a_span a) (a_index a)
            (a_marks a ++ [MAt (level (a_open a)) (length (a_cur a))]), RCheckpoint).

(** Wrapping from position [pos] on: later positions of that level are gone. *)
Definition swallow (l : option nat) (pos : nat) (m : mark) : mark :=
  match m with
  | MAt l' pos' =>
      if opt_nat_eqb l' l && Nat.ltb pos pos' then MGone l' else m
  | MGone _ => m
  end.

(** The span of a run of siblings: from the start of the first to the end of the last. *)
Fixpoint run_end {T} (x : rose T) (l : list (rose T)) : N :=
  match l with [] => s_end (r_span x) | y :: l => run_end y l end.
Definition run_span {T} (x : rose T) (l : list (rose T)) : span :=
  Span (s_start (r_span x)) (run_end x l).

(** [None]: the history uses a checkpoint that is gone, at its own level. *)
Definition a_close_at {T} (F : flavor) (k : nat) (d : T) (osp : option span) (a : doc T)
  : option (doc T * out) :=
  match nth_error (a_marks a) k with
  | None => Some (a, RNoHandle)
  | Some m =>
    if negb (opt_nat_eqb (mark_level m) (level (a_open a)))
    then Some (a, RErr CloseAtError)
    else if full F a then Some (a, RErr Overflow)
    else
      match m with
      | MGone _ => None
      | MAt l pos =>
        match skipn pos (a_cur a) with
        | [] =>
          let sp := match osp with Some sp => sp | None => span_point (a_cursor a) end in
          Some (a_leaf d sp a, RNode (a_n a))
        | x :: w =>
          let sp := match osp with Some sp => sp | None => run_span x w end in
          Some (Doc (firstn pos (a_cur a) ++ [Nd (a_n a) KWrap d sp (x :: w)])
                    (a_open a) (S (a_n a)) (a_cursor a) (a_span a) (a_index a)
                    (map (swallow l pos) (a_marks a)), RNode (a_n a))
        end
      end
  end.

Definition a_step {T} (F : flavor) (a : doc T) (o : op T) : option (doc T * out) :=
  match o with
  | OOpen d => Some (a_open_with F d (span_point (a_cursor a)) a)
  | OOpenWith d sp => Some (a_open_with F d sp a)
  | OClose => Some (a_close a)
  | OToken d len => Some (a_token F d len a)
  | OTokenEmpty d => Some (a_token F d 0%N a)
  | OTokenWith d sp => Some (a_token_with F d sp a)
  | OCheckpoint => Some (a_checkpoint F a)
  | OCloseAt k d => a_close_at F k d None a
  | OCloseAtWith k d sp => a_close_at F k d (Some sp) a
  | OSetCursor i => Some (move i a, RUnit)
  end.

Fixpoint a_run {T} (F : flavor) (a : doc T) (ops : list (op T)) : option (doc T * list out) :=
  match ops with
  | [] => Some (a, [])
  | o :: ops =>
    match a_step F a o with
    | None => None
    | Some (a, r) =>
      match a_run F a ops with
      | None => None
      | Some (a, rs) => Some (a, r :: rs)
      end
    end
  end.

(** The document a history describes; [None] when the history, at some point, uses a
    checkpoint that is gone (an enclosing close_at wrapped the place it
    denotes) at the level it belongs to. *)
Definition describes {T} (F : flavor) (ops : list (op T)) (a : doc T) (rs : list out) : Prop :=
  a_run F doc_new ops = Some (a, rs).
Definition well_used {T} (F : flavor) (ops : list (op T)) : Prop :=
  a_run F doc_new ops <> None.

(** ** Reading a history with its results *)

Definition op_value {T} (o : op T) : option T :=
  match o with
  | OOpen d | OOpenWith d _ | OToken d _ | OTokenEmpty d | OTokenWith d _
  | OCloseAt _ d | OCloseAtWith _ d _ => Some d
  | OClose | OCheckpoint | OSetCursor _ => None
  end.

(** The values passed to the calls that returned a node, in order of the calls. *)
Fixpoint inserted {T} (ops : list (op T)) (rs : list out) : list T :=
  match ops, rs with
  | o :: ops, RNode _ :: rs =>
      match op_value o with Some d => d :: inserted ops rs | None => inserted ops rs end
  | _ :: ops, _ :: rs => inserted ops rs
  | _, _ => []
  end.

(** How many nodes are open: successful opens minus successful closes. *)
Fixpoint nesting {T} (n : nat) (ops : list (op T)) (rs : list out) : nat :=
  match ops, rs with
  | OOpen _ :: ops, RNode _ :: rs => nesting (S n) ops rs
  | OOpenWith _ _ :: ops, RNode _ :: rs => nesting (S n) ops rs
  | OClose :: ops, RUnit :: rs => nesting (pred n) ops rs
  | _ :: ops, _ :: rs => nesting n ops rs
  | _, _ => n
  end.

(** ** Trees produced by a history *)

(** The history ends in a successful [build] giving [t]. *)
Definition builds {T} (F : flavor) (ops : list (op T)) (t : tree T) : Prop :=
  Builder.build (w_builder (run_world F ops)) = Ok t.

(** The history describes the finished document [l]. *)
Definition document {T} (F : flavor) (ops : list (op T)) (l : list (rose T)) : Prop :=
  exists a rs, describes F ops a rs /\ a_open a = [] /\ a_cur a = l.

(** Memory limit of the target: a [Vec] holds at most isize::MAX elements. *)
Definition fits {T} (F : flavor) (t : tree T) : Prop :=
  (Z.of_nat (length (t_nodes t)) < isize_max F)%Z.

(** A finished run: a history [ops] (any calls, in any order, successful or
    not, using no swallowed checkpoint) on a builder with [Vec] storage, which
    describes the document [l] and for which [build] returned [t]. *)
Definition finished {T} (F : flavor) (ops : list (op T)) (t : tree T) (l : list (rose T)) : Prop :=
  vec_flavor F /\ document F ops l /\ builds F ops t /\ fits F t.

Fixpoint last_error {A} (l : list A) : option A :=
  match l with [] => None | [x] => Some x | _ :: l => last_error l end.

(** Every sibling list of a document, with the parent it belongs to. *)
Definition sibling_lists {T} (l : list (rose T)) : list (option (rose T) * list (rose T)) :=
  (None, l) :: map (fun x => (Some x, r_kids x)) (preorder_list l).

(** When [last] keeps up with wrapping (see C09).  [Tree::last] does not move when the last root is
    wrapped; the [last] of an opened node moves when its last child alone is wrapped, but not
    when several children are. *)
Definition never_wrapped {T} (x : rose T) : bool :=
  match x with Nd _ KWrap _ _ (_ :: _) => false | _ => true end.
Fixpoint wrapped_alone {T} (x : rose T) : bool :=
  match x with
  | Nd _ KWrap _ _ kids => match kids with [] => true | [y] => wrapped_alone y | _ => false end
  | _ => true
  end.
(** The siblings [s] with parent [p] have a correct [last]. *)
Definition settled {T} (p : option (rose T)) (s : list (rose T)) : Prop :=
  match last_error s with
  | None => True
  | Some x =>
    match p with
    | None => never_wrapped x = true
    | Some (Nd _ KWrap _ _ _) => True
    | Some _ => wrapped_alone x = true
    end
  end.

(** [chain] is [x], its parent, its parent's parent, ... up to a root. *)
Inductive ancestry {T} (l : list (rose T)) : rose T -> list (rose T) -> Prop :=
| anc_root x : In x l -> ancestry l x [x]
| anc_child x y chain : ancestry l y chain -> In x (r_kids y) -> ancestry l x (x :: chain).

(** ** Observing iterators *)

(** The answers of the first [k] calls to [next]. *)
Fixpoint calls {S A : Type} (nxt : S -> result (S * option A)) (k : nat) (s : S)
  : result (list (option A)) :=
  match k with
  | O => Ok []
  | Datatypes.S k =>
    match nxt s with
    | Ok (s, a) =>
        match calls nxt k s with
        | Ok l => Ok (a :: l)
        | Err e => Err e
        | Diverge => Diverge
        end
    | Err e => Err e
    | Diverge => Diverge
    end
  end.

(** The iterator yields [items] in this order, each exactly once, and then
    [None] on every further call; no call fails to return. *)
Definition enumerates {S A : Type} (nxt : S -> result (S * option A)) (s : S) (items : list A)
  : Prop :=
  forall k, calls nxt k s = Ok (firstn k (map Some items ++ repeat None k)).

(** What a caller sees of a node: identifier, value, span, whether it has
    children; and the corresponding part of a document node. *)
Definition view {T} (n : Node.node T) : nat * T * span * bool :=
  (fst n, Node.node_value n, Node.node_span n, Node.has_children n).
Definition has_kids {T} (x : rose T) : bool := match r_kids x with [] => false | _ => true end.
Definition rview {T} (x : rose T) : nat * T * span * bool :=
  (r_id x, r_data x, r_span x, has_kids x).

(** A navigation function answers with this document node (or with [None]). *)
Definition answers {T} (o : option (Node.node T)) (r : option (rose T)) : Prop :=
  option_map view o = option_map rview r.

(** Taking from both ends of a list, [true] for the front: the answers. *)
Fixpoint deque {A} (sched : list bool) (xs : list A) : list (option A) :=
  match sched with
  | [] => []
  | true :: sched =>
      match xs with
      | [] => None :: deque sched []
      | x :: xs => Some x :: deque sched xs
      end
  | false :: sched =>
      match last_error xs with
      | None => None :: deque sched []
      | Some x => Some x :: deque sched (removelast xs)
      end
  end.

(** The answers of a double-ended iterator to a schedule of [next] ([true]) and
    [next_back] ([false]) calls. *)
Fixpoint drive {S A : Type} (front back : S -> result (S * option A)) (sched : list bool) (s : S)
  : result (list (option A)) :=
  match sched with
  | [] => Ok []
  | b :: sched =>
    match (if b then front else back) s with
    | Ok (s, a) =>
        match drive front back sched s with
        | Ok l => Ok (a :: l)
        | Err e => Err e
        | Diverge => Diverge
        end
    | Err e => Err e
    | Diverge => Diverge
    end
  end.

Definition enumerates_nodes {S T : Type} (nxt : S -> result (S * option (Node.node T))) (s : S)
  (xs : list (rose T)) : Prop :=
  exists items, enumerates nxt s items /\ map view items = map rview xs.
