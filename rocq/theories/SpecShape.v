(** Specification: what every sequence of builder calls does, whatever use is made of checkpoints, in
    terms of plain trees.

    ([Spec.a_run] describes the same for checkpoints used as intended, with simpler rules; this one has no
    such condition.) *)
Set Implicit Arguments.
From Verif Require Import Base Index Tree Builder Hist Node Spec.

Record shape (T : Type) := Shape {
  h_forest : list (rose T);               (* all nodes, as [first] and [next] show them *)
  h_parents : list (option nat);          (* the [parent] that each node names, by identifier *)
  h_open : list nat;                      (* open nodes, innermost first *)
  h_last : option nat;                    (* the node behind which the next one goes; [None]: it is the
                                             first in the innermost open node (or in the tree) *)
  h_cursor : N;
  h_span : span;                          (* span of the tree *)
  h_cells : list (nat * option nat);      (* places of checkpoints: the identifier of the node that stands
                                             there or will be the next; the open node they belong to *)
  h_handles : list nat;                   (* checkpoints handed out, by place *)
}.
Arguments h_forest {T} _. Arguments h_parents {T} _. Arguments h_open {T} _. Arguments h_last {T} _. Arguments h_cursor {T} _.
Arguments h_span {T} _. Arguments h_cells {T} _. Arguments h_handles {T} _. Arguments Shape {T} _ _ _ _ _ _ _ _.

Definition shape_new {T} : shape T := Shape [] [] [] None 0%N (Span 0 0) [] [].

(** ** Changing a forest *)

(** [x] comes right after the node [s]. *)
Fixpoint after_in {T} (s : nat) (x : rose T) (y : rose T) : list (rose T) :=
  match y with
  | Nd i k d sp kids => Nd i k d sp (flat_map (after_in s x) kids) :: (if Nat.eqb i s then [x] else [])
  end.
(** [x] becomes the last child of [p]. *)
Fixpoint into {T} (p : nat) (x : rose T) (y : rose T) : rose T :=
  match y with
  | Nd i k d sp kids => Nd i k d sp (map (into p x) kids ++ (if Nat.eqb i p then [x] else []))
  end.
(** The span of [p] changes. *)
Fixpoint respan {T} (p : nat) (f : span -> span) (y : rose T) : rose T :=
  match y with
  | Nd i k d sp kids => Nd i k d (if Nat.eqb i p then f sp else sp) (map (respan p f) kids)
  end.
(** The node [id] and all its later siblings become the children of one node, [w] of them. *)
Definition wrap_with {T} (rec : rose T -> rose T) (id : nat) (w : rose T -> list (rose T) -> rose T) : list (rose T) -> list (rose T) :=
  fix go l := match l with
  | [] => []
  | y :: r => if Nat.eqb (r_id y) id then [w y r] else rec y :: go r
  end.
Fixpoint wrap_in {T} (id : nat) (w : rose T -> list (rose T) -> rose T) (y : rose T) : rose T :=
  match y with
  | Nd i k d sp kids => Nd i k d sp (wrap_with (wrap_in id w) id w kids)
  end.
Definition wrap_from {T} (id : nat) (w : rose T -> list (rose T) -> rose T) : list (rose T) -> list (rose T) :=
  wrap_with (wrap_in id w) id w.

(** The node [id] and its later siblings. *)
Fixpoint from {T} (id : nat) (l : list (rose T)) : option (rose T * list (rose T)) :=
  match l with
  | [] => None
  | y :: r => if Nat.eqb (r_id y) id then Some (y, r) else from id r
  end.
Fixpoint first_some {A B} (f : A -> option B) (l : list A) : option B :=
  match l with [] => None | a :: l => match f a with Some b => Some b | None => first_some f l end end.
Definition run_at {T} (id : nat) (forest : list (rose T)) : option (rose T * list (rose T)) :=
  first_some (fun ps => from id (snd ps)) (sibling_lists forest).

(** ** The calls *)
Definition h_full {T} (F : flavor) (h : shape T) : bool :=
  N.leb (int_max F (fl_width F)) (N.of_nat (length (h_parents h))).

Definition respan_level {T} (h : shape T) (f : span -> span) : list (rose T) :=
  match h_open h with p :: _ => map (respan p f) (h_forest h) | [] => h_forest h end.

(** A new childless node, in its place; the innermost open node ends where it ends. *)
Definition h_add {T} (d : T) (sp : span) (h : shape T) : shape T :=
  let n := length (h_parents h) in
  let x := Nd n KLeaf d sp [] in
  let h := Shape
    (match h_last h, h_open h with
     | Some s, _ => flat_map (after_in s x) (h_forest h)
     | None, p :: _ => map (into p x) (h_forest h)
     | None, [] => h_forest h ++ [x]
     end)
    (h_parents h ++ [hd_error (h_open h)]) (h_open h) (Some n) (h_cursor h) (h_span h) (h_cells h) (h_handles h) in
  Shape (respan_level h (fun s => set_end s (s_end sp)))
    (h_parents h) (h_open h) (h_last h) (h_cursor h) (h_span h) (h_cells h) (h_handles h).

Definition h_enter {T} (id : nat) (h : shape T) : shape T :=
  Shape (h_forest h) (h_parents h) (id :: h_open h) None (h_cursor h) (h_span h) (h_cells h) (h_handles h).
Definition h_move {T} (c : N) (h : shape T) : shape T :=
  Shape (h_forest h) (h_parents h) (h_open h) (h_last h) c (h_span h) (h_cells h) (h_handles h).
Definition h_stretch {T} (e : N) (h : shape T) : shape T :=
  Shape (h_forest h) (h_parents h) (h_open h) (h_last h) (h_cursor h) (set_end (h_span h) e) (h_cells h) (h_handles h).
Definition h_widen {T} (sp : span) (h : shape T) : shape T :=
  Shape (respan_level h (fun s => span_join s sp)) (h_parents h) (h_open h) (h_last h) (h_cursor h) (h_span h) (h_cells h) (h_handles h).

Definition h_open_with {T} (F : flavor) (d : T) (sp : span) (h : shape T) : shape T * out :=
  if h_full F h then (h, RErr Overflow)
  else (h_enter (length (h_parents h)) (h_add d sp h), RNode (length (h_parents h))).

(** Closing: the enclosing open node is widened, the cursor goes to the end of the closed node. *)
Definition h_close {T} (h : shape T) : shape T * out :=
  match h_open h with
  | [] => (h, RErr CloseError)
  | p :: up =>
    match find (fun x => Nat.eqb (r_id x) p) (preorder_list (h_forest h)) with
    | None => (h, RErr CloseError)     (* does not happen: open nodes are in the forest *)
    | Some x =>
      (h_move (s_end (r_span x)) (h_widen (r_span x)
        (Shape (h_forest h) (h_parents h) up (Some p) (h_cursor h) (h_span h) (h_cells h) (h_handles h))), RUnit)
    end
  end.

Definition h_token {T} (F : flavor) (d : T) (len : N) (h : shape T) : shape T * out :=
  if len_is_empty F len then
    if h_full F h then (h, RErr Overflow)
    else (h_add d (span_point (h_cursor h)) h, RNode (length (h_parents h)))
  else
    match ix_checked_add_len F (h_cursor h) len with
    | None => (h, RErr Overflow)
    | Some c =>
      let h' := h_stretch c (h_move c h) in
      if h_full F h then (h', RErr Overflow)
      else (h_add d (Span (h_cursor h) c) h', RNode (length (h_parents h)))
    end.

Definition h_token_with {T} (F : flavor) (d : T) (sp : span) (h : shape T) : shape T * out :=
  if h_full F h then (h, RErr Overflow)
  else (h_move (s_end sp) (h_widen sp (h_add d sp h)), RNode (length (h_parents h))).

(** A checkpoint taken where the last one was taken, if that one still stands there, is the same one. *)
Definition h_checkpoint {T} (F : flavor) (h : shape T) : shape T * out :=
  if h_full F h then (h, RErr Overflow)
  else
    let here := (length (h_parents h), hd_error (h_open h)) in
    let put cells k := Shape (h_forest h) (h_parents h) (h_open h) (h_last h) (h_cursor h) (h_span h) cells (h_handles h ++ [k]) in
    match last_error (h_cells h) with
    | Some (i, o) =>
        if Nat.eqb i (fst here) && opt_nat_eqb o (snd here)
        then (put (h_cells h) (length (h_cells h) - 1), RCheckpoint)
        else (put (h_cells h ++ [here]) (length (h_cells h)), RCheckpoint)
    | None => (put (h_cells h ++ [here]) (length (h_cells h)), RCheckpoint)
    end.

(** Closing at a checkpoint: when nothing stands at its place, a childless node; otherwise the node
    there and all its later siblings get a new parent, which takes the parent that the first of them named; the
    checkpoint now stands at that new node. *)
Definition h_close_at {T} (F : flavor) (k : nat) (d : T) (osp : option span) (h : shape T) : shape T * out :=
  match nth_error (h_handles h) k with
  | None => (h, RNoHandle)
  | Some a =>
    match nth_error (h_cells h) a with
    | None => (h, RNoHandle)           (* does not happen *)
    | Some (id, lv) =>
      let n := length (h_parents h) in
      if negb (opt_nat_eqb lv (hd_error (h_open h))) then (h, RErr CloseAtError)
      else if h_full F h then (h, RErr Overflow)
      else
        match run_at id (h_forest h) with
        | None =>
          (h_add d (match osp with Some sp => sp | None => span_point (h_cursor h) end) h, RNode n)
        | Some (x, later) =>
          let par := match nth_error (h_parents h) id with Some o => o | None => None end in
          (Shape (wrap_from id (fun x later => Nd n KWrap d (match osp with Some sp => sp | None => run_span x later end) (x :: later)) (h_forest h))
             (fold_right (fun y ps => upd ps (r_id y) (fun _ => Some n)) (h_parents h) (x :: later) ++ [par])
             (h_open h) (Some n) (h_cursor h) (h_span h) (upd (h_cells h) a (fun _ => (n, par))) (h_handles h), RNode n)
        end
    end
  end.

Definition h_step {T} (F : flavor) (h : shape T) (o : op T) : shape T * out :=
  match o with
  | OOpen d => h_open_with F d (span_point (h_cursor h)) h
  | OOpenWith d sp => h_open_with F d sp h
  | OClose => h_close h
  | OToken d len => h_token F d len h
  | OTokenEmpty d => h_token F d 0%N h
  | OTokenWith d sp => h_token_with F d sp h
  | OCheckpoint => h_checkpoint F h
  | OCloseAt k d => h_close_at F k d None h
  | OCloseAtWith k d sp => h_close_at F k d (Some sp) h
  | OSetCursor i => (h_move i h, RUnit)
  end.

Fixpoint h_run {T} (F : flavor) (h : shape T) (ops : list (op T)) : shape T * list out :=
  match ops with
  | [] => (h, [])
  | o :: ops =>
    let '(h, r) := h_step F h o in
    let '(h, rs) := h_run F h ops in (h, r :: rs)
  end.
