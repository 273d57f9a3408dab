(** src/edit.rs.  No proofs. *)
Set Implicit Arguments.
From Verif Require Import Base Pointer Index Tree Node.

(** lines 76-84, [ChangeSet]: a map whose only change is [Delete]; so a list of
    ids.  [trees] is unused by the code. *)
Definition changeset := list nat.
Definition changeset_new : changeset := [].
(** lines 136-138, [remove]. *)
Definition changeset_remove (id : nat) (c : changeset) : changeset := id :: c.
(** line 193: [self.changes.get(&node_id)] is [Some(Delete)]. *)
Definition changed (c : changeset) (id : nat) : bool := existsb (Nat.eqb id) c.

(** lines 297-304, [RefactorWalk]; the top of the [parents] vector is the head
    of the list. *)
Record refactor (T : Type) := Refactor {
  r_parents : list (node T * nat);
  r_prev : option nat;
}.
Arguments r_parents {T} _. Arguments r_prev {T} _.
Arguments Refactor {T} _ _.

(** lines 311-319, [skip_subtree]. *)
Definition skip_subtree {T} (nodes : list (links T)) (r : refactor T) (n : node T) (first : bool)
  : refactor T * option (node T * bool) :=
  match node_next nodes n with
  | Some next => (r, Some (next, first))
  | None =>
    match r_parents r with
    | [] => (r, None)
    | (p, pid) :: ps => (Refactor ps (Some pid), Some (p, false))
    end
  end.

(** lines 337-342: pop parents until one has a next sibling. *)
Fixpoint step_pop {T} (nodes : list (links T)) (parents : list (node T * nat)) (prev : option nat)
  : refactor T * option (node T * bool) :=
  match parents with
  | [] => (Refactor [] prev, None)
  | (p, pid) :: ps =>
    match node_next nodes p with
    | Some next => (Refactor ps (Some pid), Some (next, false))
    | None => step_pop nodes ps prev
    end
  end.

(** lines 322-345, [step]. *)
Definition refactor_step {T} (nodes : list (links T)) (r : refactor T) (n : node T) (id : nat)
  : refactor T * option (node T * bool) :=
  match node_first nodes n with
  | Some next => (Refactor ((n, id) :: r_parents r) (r_prev r), Some (next, true))
  | None =>
    match node_next nodes n with
    | Some next => (Refactor (r_parents r) (Some id), Some (next, false))
    | None => step_pop nodes (r_parents r) (r_prev r)
    end
  end.

(** lines 206-263: emit [n] (with flag [first]) into [output]. *)
Definition emit {T} (F : flavor) (r : refactor T) (output : tree T) (cursor : N)
  (node_id : nat) (n : node T) (first : bool)
  : (refactor T * tree T * N) * result unit :=
  let output :=                                                     (* 206-214 *)
    match r_parents r with
    | [] =>
      let output := match t_first output with
                    | None => set_t_first (Some node_id) output
                    | Some _ => output
                    end in
      set_t_last (Some node_id) output
    | _ => output
    end in
  let '(r, prev, output) :=                                         (* 218-228 *)
    if first then (r, None, output)
    else
      let prev := r_prev r in
      (Refactor (r_parents r) None, prev,
       match prev with
       | Some p => tree_upd p (set_l_next (Some node_id)) output
       | None => output
       end) in
  let spanned :=                                                    (* 230-242 *)
    if negb (has_children n) && negb (span_is_empty (node_span n)) then
      match tree_push_index F cursor node_id output with
      | None => inr FlavorError
      | Some output =>
        match ix_checked_add_len F cursor (span_len F (node_span n)) with
        | None => inr Overflow
        | Some c => inl (output, c, Span cursor c)
        end
      end
    else inl (output, cursor, span_point cursor) in
  match spanned with
  | inr e => ((r, output, cursor), Err e)
  | inl (output, cursor, sp) =>
    let parent := match r_parents r with [] => None | (_, pid) :: _ => Some pid end in
    let output :=                                                   (* 244-253 *)
      match parent with
      | Some p =>
        tree_upd p (fun l =>
          let l := match l_first l with
                   | None => set_l_first (Some node_id) l
                   | Some _ => l
                   end in
          let l := set_l_last (Some node_id) l in
          set_l_span (set_end (l_span l) (s_end sp)) l) output
      | None => output
      end in
    match tree_push F (Links (node_value n) sp parent prev None None None) output with
    | None => ((r, output, cursor), Err FlavorError)                (* 255-263 *)
    | Some output => ((r, output, cursor), Ok tt)
    end
  end.

(** lines 190-266, the loop of [modify].  [nodes] is the source table. *)
Fixpoint modify_loop {T} (fuel : nat) (F : flavor) (c : changeset) (nodes : list (links T))
  (r : refactor T) (output : tree T) (cursor : N) (current : option (node T * bool))
  : result (tree T * N) :=
  match current with
  | None => Ok (output, cursor)
  | Some (n, first) =>
    match fuel with
    | O => Diverge
    | S fuel =>
      match pointer_new F (tree_len output) with
      | None => Err Overflow                                        (* 191 *)
      | Some node_id =>
        let go r n first :=
          match emit F r output cursor node_id n first with
          | ((r, output, cursor), Ok _) =>
            let '(r, current) := refactor_step nodes r n node_id in (* 265 *)
            modify_loop fuel F c nodes r output cursor current
          | (_, Err e) => Err e
          | (_, Diverge) => Diverge
          end in
        if changed c node_id then                                   (* 193-204 *)
          match skip_subtree nodes r n first with
          | (r, None) => Ok (output, cursor)     (* continue: [current] is None *)
          | (r, Some (n, first)) => go r n first
          end
        else go r n first
      end
    end
  end.

(** lines 177-270, [modify].  [with_capacity] does not fail on the modelled
    storages.  Fuel: callers choose; theorems show enough fuel exists where the
    code terminates. *)
Definition modify {T} (fuel : nat) (F : flavor) (c : changeset) (t : tree T) : result (tree T) :=
  match modify_loop fuel F c (t_nodes t) (Refactor [] None) tree_new ix_EMPTY
          (option_map (fun n => (n, false)) (tree_first t)) with
  | Ok (output, cursor) => Ok (set_t_span (set_end (t_span output) cursor) output)  (* 268-269 *)
  | Err e => Err e
  | Diverge => Diverge
  end.
