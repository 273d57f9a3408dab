(** Specification: structured use of a builder, as in a hand-written parser, and the trees a parser
    without a builder would return instead. *)
Set Implicit Arguments.
From Verif Require Import Base Index Tree Builder Hist Node Iter Spec SpecEq.

(** Trees that know their tokens by length only: what a function returning trees would return. *)
Inductive gtree (T : Type) := GTok (d : T) (len : N) | GNode (d : T) (kids : list (gtree T)).
Arguments GTok {T} _ _.
Arguments GNode {T} _ _.

(** The length of the text of a tree, and the number of its nodes. *)
Fixpoint width {T} (g : gtree T) : N :=
  match g with
  | GTok _ len => len
  | GNode _ kids => fold_right (fun g w => width g + w)%N 0%N kids
  end.
Definition widths {T} (gs : list (gtree T)) : N := fold_right (fun g w => width g + w)%N 0%N gs.
Fixpoint size {T} (g : gtree T) : nat :=
  match g with
  | GTok _ _ => 1
  | GNode _ kids => S (fold_right (fun g n => size g + n) 0 kids)
  end.
Definition sizes {T} (gs : list (gtree T)) : nat := fold_right (fun g n => size g + n) 0 gs.

(** The tree laid out from position [c] on: every node covers exactly its text. *)
Fixpoint lay {T} (c : N) (g : gtree T) : shape T :=
  match g with
  | GTok d len => Sh d (Span c (c + len)) []
  | GNode d kids =>
      Sh d (Span c (c + width g))
        ((fix go (c : N) (l : list (gtree T)) := match l with [] => [] | g :: l => lay c g :: go (c + width g)%N l end) c kids)
  end.
Fixpoint lay_list {T} (c : N) (l : list (gtree T)) : list (shape T) :=
  match l with [] => [] | g :: l => lay c g :: lay_list (c + width g)%N l end.

(** Structured programs.  [PMark body] takes a checkpoint and runs [body], where [PWrap d] closes
    that checkpoint with the value [d], any number of times.  The last argument is what comes next. *)
Inductive prog (T : Type) :=
| PDone
| PTok (d : T) (len : N) (k : prog T)
| PNode (d : T) (body k : prog T)
| PMark (body k : prog T)
| PWrap (d : T) (k : prog T).
Arguments PDone {T}.
Arguments PTok {T} _ _ _.
Arguments PNode {T} _ _ _.
Arguments PMark {T} _ _.
Arguments PWrap {T} _ _.

(** [PWrap] only where there is a checkpoint to close. *)
Fixpoint scoped {T} (in_mark : bool) (p : prog T) : Prop :=
  match p with
  | PDone => True
  | PTok _ _ k => scoped in_mark k
  | PNode _ b k => scoped false b /\ scoped in_mark k
  | PMark b k => scoped true b /\ scoped in_mark k
  | PWrap _ k => in_mark = true /\ scoped in_mark k
  end.

(** The calls: [n] checkpoints have been taken before, [c] is the one to close. *)
Fixpoint marks {T} (p : prog T) : nat :=
  match p with
  | PDone => 0
  | PTok _ _ k => marks k
  | PNode _ b k => marks b + marks k
  | PMark b k => S (marks b + marks k)
  | PWrap _ k => marks k
  end.
Fixpoint program_calls {T} (n c : nat) (p : prog T) : list (op T) :=
  match p with
  | PDone => []
  | PTok d len k => OToken d len :: program_calls n c k
  | PNode d b k => OOpen d :: program_calls n c b ++ OClose :: program_calls (n + marks b) c k
  | PMark b k => OCheckpoint :: program_calls (S n) n b ++ program_calls (S n + marks b) c k
  | PWrap d k => OCloseAt c d :: program_calls n c k
  end.

(** The trees, [acc] being those since the checkpoint: a token is a leaf, a node has the trees of its
    body, wrapping puts all the trees since the checkpoint under one node. *)
Fixpoint program_trees {T} (acc : list (gtree T)) (p : prog T) : list (gtree T) :=
  match p with
  | PDone => acc
  | PTok d len k => program_trees (acc ++ [GTok d len]) k
  | PNode d b k => program_trees (acc ++ [GNode d (program_trees [] b)]) k
  | PMark b k => program_trees (acc ++ program_trees [] b) k
  | PWrap d k => program_trees [GNode d acc] k
  end.

(** The program adds a node. *)
Fixpoint adds {T} (p : prog T) : bool :=
  match p with
  | PDone => false
  | PMark b k => adds b || adds k
  | PTok _ _ _ | PNode _ _ _ | PWrap _ _ => true
  end.
(** It takes a checkpoint after its last node. *)
Fixpoint late {T} (p : prog T) : bool :=
  match p with
  | PDone => false
  | PTok _ _ k | PWrap _ k => late k
  | PNode _ b k => late k || late b && negb (adds k)
  | PMark b k => late k || (late b || negb (adds b)) && negb (adds k)
  end.

(** Trees whose tokens have no length; what remains of trees in a flavor: [Empty] indexes measure nothing. *)
Fixpoint silent {T} (g : gtree T) : gtree T :=
  match g with GTok d _ => GTok d 0 | GNode d kids => GNode d (map silent kids) end.
Definition measured {T} (F : flavor) (gs : list (gtree T)) : list (gtree T) :=
  match fl_index F with IxEmpty => map silent gs | _ => gs end.

(** The tokens of trees, left to right. *)
Fixpoint leaves {T} (g : gtree T) : list (T * N) :=
  match g with
  | GTok d len => [(d, len)]
  | GNode _ kids => flat_map leaves kids
  end.

(** A program on a fresh builder that ends with [r] has built these trees, or there was no room for
    them: the nodes (and one more) fit the pointer width and the text fits the index unless it
    failed with Overflow; it failed with nothing else. *)
Definition yields {T} (F : flavor) (r : result (tree T)) (gs : list (gtree T)) : Prop :=
  (r = Err Overflow \/
   exists t ops l, r = Ok t /\ builds F ops t /\ document F ops l /\ map erase l = lay_list 0 gs /\ tree_len t = sizes gs) /\
  ((N.of_nat (sizes gs) < int_max F (fl_width F))%N -> (widths gs <= ix_max F)%N -> r <> Err Overflow).
