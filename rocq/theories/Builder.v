(** src/builder.rs and src/builder/checkpoint.rs.  No proofs.

    Methods taking [&mut self] return the new builder next to the result, also
    when the result is an error: the assignments made before a [?] are kept. *)
Set Implicit Arguments.
From Verif Require Import Base Pointer Index Tree.

(** src/builder/checkpoint.rs lines 15 and 47-52: [Checkpoint] is an
    [Rc<Cell<Inner>>].  The [Rc] is an address (index) into a heap of cells. *)
Record cell := Cell { c_node : nat; c_parent : option nat }.
Definition heap := list cell.

(** src/builder.rs lines 54-71, [struct Builder]. *)
Record builder (T : Type) := Builder {
  b_tree : tree T;
  b_checkpoint : option nat;   (* Option<Checkpoint>: an address *)
  b_parent : option nat;
  b_sibling : option nat;
  b_cursor : N;
}.
Arguments b_tree {T} _. Arguments b_checkpoint {T} _. Arguments b_parent {T} _. Arguments b_sibling {T} _. Arguments b_cursor {T} _.
Arguments Builder {T} _ _ _ _ _.

Definition set_b_tree {T} (v : tree T) (b : builder T) :=
  Builder v (b_checkpoint b) (b_parent b) (b_sibling b) (b_cursor b).
Definition set_b_checkpoint {T} (v : option nat) (b : builder T) :=
  Builder (b_tree b) v (b_parent b) (b_sibling b) (b_cursor b).
Definition set_b_parent {T} (v : option nat) (b : builder T) :=
  Builder (b_tree b) (b_checkpoint b) v (b_sibling b) (b_cursor b).
Definition set_b_sibling {T} (v : option nat) (b : builder T) :=
  Builder (b_tree b) (b_checkpoint b) (b_parent b) v (b_cursor b).
Definition set_b_cursor {T} (v : N) (b : builder T) :=
  Builder (b_tree b) (b_checkpoint b) (b_parent b) (b_sibling b) v.

(** src/builder.rs lines 168-176, [Builder::new_with]. *)
Definition builder_new {T} : builder T := Builder tree_new None None None ix_EMPTY.

(** src/builder.rs lines 209-211, [cursor]. *)
Definition cursor {T} (b : builder T) : N := b_cursor b.

(** src/builder.rs lines 242-244, [set_cursor]. *)
Definition set_cursor {T} (i : N) (b : builder T) : builder T := set_b_cursor i b.

(** src/builder.rs lines 975-1014, [insert]. *)
Definition insert {T} (F : flavor) (data : T) (sp : span) (b : builder T)
  : builder T * result nat :=
  match pointer_new F (tree_len (b_tree b)) with
  | None => (b, Err Overflow)                                       (* 976 *)
  | Some new =>
    let prev := b_sibling b in
    let b := set_b_sibling None b in                                (* 978 *)
    match tree_push F (Links data sp (b_parent b) prev None None None) (b_tree b) with
    | None => (b, Err FlavorError)                                  (* 980-988 *)
    | Some t =>
      let t :=
        match b_parent b with
        | Some id =>                                                (* 990-998 *)
          tree_upd id (fun l =>
            let l := match l_first l with
                     | None => set_l_first (Some new) l
                     | Some _ => l
                     end in
            let l := set_l_last (Some new) l in
            set_l_span (set_end (l_span l) (s_end sp)) l) t
        | None =>                                                   (* 999-1007 *)
          let t := match t_first t with
                   | None => set_t_first (Some new) t
                   | Some _ => t
                   end in
          set_t_last (Some new) t
        end in
      let t :=
        match prev with                                             (* 1009-1011 *)
        | Some id => tree_upd id (set_l_next (Some new)) t
        | None => t
        end in
      (set_b_tree t b, Ok new)
    end
  end.

(** src/builder.rs lines 323-331, [open_with]. *)
Definition open_with {T} (F : flavor) (data : T) (sp : span) (b : builder T)
  : builder T * result nat :=
  match insert F data sp b with
  | (b, Ok id) => (set_b_parent (Some id) b, Ok id)
  | r => r
  end.

(** src/builder.rs lines 274-278, [open]. *)
Definition open {T} (F : flavor) (data : T) (b : builder T) : builder T * result nat :=
  match insert F data (span_point (b_cursor b)) b with
  | (b, Ok id) => (set_b_parent (Some id) b, Ok id)
  | r => r
  end.

(** src/builder.rs lines 359-381, [close]. *)
Definition close {T} (b : builder T) : builder T * result unit :=
  match b_parent b with
  | None => (b, Err CloseError)                                     (* 360 *)
  | Some head =>
    let b := set_b_parent None b in
    let b := set_b_sibling (Some head) b in                         (* 362 *)
    match nth_error (t_nodes (b_tree b)) head with
    | None => (b, Err (MissingNode head))                           (* 364-367 *)
    | Some l =>
      match l_parent l with
      | Some id =>                                                  (* 369-377 *)
        match nth_error (t_nodes (b_tree b)) id with
        | None => (b, Err (MissingNode id))
        | Some _ =>
          let t := tree_upd id (fun p => set_l_span (span_join (l_span p) (l_span l)) p)
                            (b_tree b) in
          (set_b_cursor (s_end (l_span l)) (set_b_parent (Some id) (set_b_tree t b)), Ok tt)
        end
      | None => (set_b_cursor (s_end (l_span l)) b, Ok tt)          (* 379 *)
      end
    end
  end.

(** src/builder.rs lines 412-431, [token]. *)
Definition token {T} (F : flavor) (value : T) (len : N) (b : builder T)
  : builder T * result nat :=
  let start := b_cursor b in
  let go b :=                                                       (* 420-430 *)
    match insert F value (Span start (b_cursor b)) b with
    | (b, Ok id) =>
      let b := set_b_sibling (Some id) b in
      if len_is_empty F len then (b, Ok id)
      else
        match tree_push_index F (b_cursor b) id (b_tree b) with
        | None => (b, Err FlavorError)
        | Some t => (set_b_tree t b, Ok id)
        end
    | r => r
    end in
  if len_is_empty F len then go b
  else                                                              (* 415-418 *)
    match ix_checked_add_len F (b_cursor b) len with
    | None => (b, Err Overflow)
    | Some c =>
      let b := set_b_cursor c b in
      go (set_b_tree (set_t_span (set_end (t_span (b_tree b)) c) (b_tree b)) b)
    end.

(** src/builder.rs lines 540-542, [token_empty]. *)
Definition token_empty {T} (F : flavor) (value : T) (b : builder T)
  : builder T * result nat := token F value len_EMPTY b.

(** src/builder.rs lines 490-509, [token_with]. *)
Definition token_with {T} (F : flavor) (value : T) (sp : span) (b : builder T)
  : builder T * result nat :=
  match insert F value sp b with
  | (b, Ok id) =>
    let b := set_b_sibling (Some id) b in
    match tree_push_index F (s_start sp) id (b_tree b) with
    | None => (b, Err FlavorError)
    | Some t =>
      let t := match b_parent b with                                (* 503-505 *)
               | Some p => tree_upd p (fun l => set_l_span (span_join (l_span l) sp) l) t
               | None => t
               end in
      (set_b_cursor (s_end sp) (set_b_tree t b), Ok id)
    end
  | r => r
  end.

(** src/builder.rs lines 617-629, [checkpoint].  The result is an address. *)
Definition checkpoint {T} (F : flavor) (h : heap) (b : builder T)
  : heap * builder T * result nat :=
  match pointer_new F (tree_len (b_tree b)) with
  | None => (h, b, Err Overflow)
  | Some node =>
    let fresh :=                                                    (* 626-628 *)
      let a := length h in
      (h ++ [Cell node (b_parent b)], set_b_checkpoint (Some a) b, Ok a) in
    match b_checkpoint b with                                       (* 620-624 *)
    | Some a =>
      match nth_error h a with
      | Some c =>
        if Nat.eqb (c_node c) node && opt_nat_eqb (c_parent c) (b_parent b)
        then (h, b, Ok a) else fresh
      | None => fresh      (* an Rc never dangles *)
      end
    | None => fresh
    end
  end.

(** src/builder.rs lines 1050-1074, [restructure_close_at].  The do-while
    shaped code (first node, then a loop over [next]) is one fuelled recursion: each round looks
    [next] up, records [(next, end)], sets [parent] and continues with the
    [next] link read from the node.  Returns the nodes edited so far. *)
Fixpoint restructure {T} (fuel : nat) (parent_id : nat) (next : nat)
  (nodes : list (links T)) : list (links T) * result (nat * N) :=
  match fuel with
  | O => (nodes, Diverge)
  | S fuel =>
    match nth_error nodes next with
    | None => (nodes, Err (MissingNode next))
    | Some l =>
      let nodes := upd nodes next (set_l_parent (Some parent_id)) in
      match l_next l with
      | Some n => restructure fuel parent_id n nodes
      | None => (nodes, Ok (next, s_end (l_span l)))
      end
    end
  end.

(** src/builder.rs lines 735-809 [close_at] (when [osp] is [None]) and 842-916
    [close_at_with] (when [osp] is [Some span]).  The two bodies are textually
    equal but for the span: lines 749/857 and 765-771/873-878.  [a] is the
    address of the checkpoint [c]. *)
Definition close_at_gen {T} (F : flavor) (a : nat) (data : T) (osp : option span)
  (h : heap) (b : builder T) : heap * builder T * result nat :=
  match nth_error h a with
  | None => (h, b, Diverge)     (* an Rc never dangles: not reachable *)
  | Some c =>
    let id := c_node c in
    if negb (opt_nat_eqb (c_parent c) (b_parent b))
    then (h, b, Err CloseAtError)                                   (* 742-744 *)
    else
    match pointer_new F (tree_len (b_tree b)) with
    | None => (h, b, Err Overflow)                                  (* 746 *)
    | Some new_id =>
      match nth_error (t_nodes (b_tree b)) id with
      | None =>                                                     (* 748-757 *)
        let sp := match osp with Some sp => sp | None => span_point (b_cursor b) end in
        match insert F data sp b with
        | (b, Ok new_id) =>
          if Nat.eqb new_id id
          then (h, set_b_sibling (Some new_id) b, Ok new_id)
          else (h, b, Err (MissingNode new_id))
        | (b, r) => (h, b, r)
        end
      | Some l =>
        let parent := l_parent l in
        let prev := l_prev l in
        let t := b_tree b in
        let t := tree_upd id (fun l => set_l_prev None (set_l_parent (Some new_id) l)) t in
                                                                    (* 759-760 *)
        let '(nodes, r) :=                                          (* 765-771 *)
          match l_next l with
          | Some next => restructure (S (tree_len t)) new_id next (t_nodes t)
          | None => (t_nodes t, Ok (id, s_end (l_span l)))
          end in
        let t := set_t_nodes nodes t in
        match r with
        | Err e => (h, set_b_tree t b, Err e)
        | Diverge => (h, set_b_tree t b, Diverge)
        | Ok (last, end_) =>
          let sp := match osp with
                    | Some sp => sp
                    | None => Span (s_start (l_span l)) end_
                    end in
          let t :=                                                  (* 773-781 *)
            match parent with
            | Some p =>
              tree_upd p (fun l =>
                let l := if opt_nat_eqb (l_first l) (Some id)
                         then set_l_first (Some new_id) l else l in
                if opt_nat_eqb (l_last l) (Some id)
                then set_l_last (Some new_id) l else l) t
            | None => t
            end in
          let t :=                                                  (* 783-785 *)
            match prev with
            | Some p => tree_upd p (set_l_next (Some new_id)) t
            | None => t
            end in
          let t :=                                                  (* 789-793 *)
            if opt_nat_eqb (t_first t) (Some id) then set_t_first (Some new_id) t else t in
          match tree_push F (Links data sp parent prev None (Some id) (Some last)) t with
          | None => (h, set_b_tree t b, Err FlavorError)            (* 796-804 *)
          | Some t =>                                               (* 806-808 *)
            (upd h a (fun _ => Cell new_id parent),
             set_b_sibling (Some new_id) (set_b_tree t b), Ok new_id)
          end
        end
      end
    end
  end.

Definition close_at {T} (F : flavor) (a : nat) (data : T) :=
  close_at_gen F a data None.
Definition close_at_with {T} (F : flavor) (a : nat) (data : T) (sp : span) :=
  close_at_gen F a data (Some sp).

(** src/builder.rs lines 966-972, [build]. *)
Definition build {T} (b : builder T) : result (tree T) :=
  match b_parent b with
  | Some _ => Err BuildError
  | None => Ok (b_tree b)
  end.

(** src/builder.rs lines 1024-1032, [clone]: the tree is copied, the memoised
    checkpoint is an [Rc] and so is shared. *)
Definition builder_clone {T} (b : builder T) : builder T :=
  Builder (b_tree b) (b_checkpoint b) (b_parent b) (b_sibling b) (b_cursor b).
