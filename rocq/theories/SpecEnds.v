(** Specification: which node counts as the last among siblings, and which tokens a search by position sees, after any sequence of builder calls.  It goes alongside [SpecShape.h_step]. *)
Set Implicit Arguments.
From Verif Require Import Base Index Tree Builder Hist Node Spec SpecShape.

Record end_state := Ends {
  e_lasts : list (option nat);      (* for each node by identifier: the one that counts as its last child *)
  e_tail : option nat;              (* the one that counts as the last root *)
  e_index : list (N * nat);         (* position and token, in the order of the calls *)
}.
Definition ends_new : end_state := Ends [] None [].

(** The siblings that a call gives a new parent: the one at the checkpoint and the later ones. *)
Definition run_of {T} (h : shape T) (o : op T) : option (rose T * list (rose T)) :=
  match o with
  | OCloseAt k _ | OCloseAtWith k _ _ =>
    match nth_error (h_handles h) k with
    | Some a => match nth_error (h_cells h) a with Some (id, _) => run_at id (h_forest h) | None => None end
    | None => None
    end
  | _ => None
  end.

(** A node that is added is the last one of the innermost open node (of the tree when none is open). *)
Definition e_add {T} (h : shape T) (n : nat) (e : end_state) : end_state :=
  match hd_error (h_open h) with
  | Some p => Ends (upd (e_lasts e ++ [None]) p (fun _ => Some n)) (e_tail e) (e_index e)
  | None => Ends (e_lasts e ++ [None]) (Some n) (e_index e)
  end.
(** A node that takes over siblings: its last one is the last of them, and it takes their place as the last of the
    parent that the first of them names if that first one was the last.  The last root stays what it was. *)
Definition e_wrap {T} (h : shape T) (x : rose T) (later : list (rose T)) (n : nat) (e : end_state) : end_state :=
  let lasts := match nth_error (h_parents h) (r_id x) with
    | Some (Some p) => upd (e_lasts e) p (fun o => if opt_nat_eqb o (Some (r_id x)) then Some n else o)
    | _ => e_lasts e
    end in
  Ends (lasts ++ [Some (r_id (last later x))]) (e_tail e) (e_index e).
(** A token of non-zero length counts with the position after it, a token with a given span with its start. *)
Definition e_note {T} (F : flavor) (h' : shape T) (o : op T) (n : nat) (e : end_state) : end_state :=
  match fl_indexes F, o with
  | SVec, OToken _ len => if len_is_empty F len then e else Ends (e_lasts e) (e_tail e) (e_index e ++ [(h_cursor h', n)])
  | SVec, OTokenWith _ sp => Ends (e_lasts e) (e_tail e) (e_index e ++ [(s_start sp, n)])
  | _, _ => e
  end.

(** [h] before the call, [h'] and [r] after it. *)
Definition e_step {T} (F : flavor) (h : shape T) (o : op T) (h' : shape T) (r : out) (e : end_state) : end_state :=
  match r with
  | RNode n =>
    e_note F h' o n (match run_of h o with Some (x, later) => e_wrap h x later n e | None => e_add h n e end)
  | _ => e
  end.
Fixpoint e_run {T} (F : flavor) (h : shape T) (e : end_state) (ops : list (op T)) : end_state :=
  match ops with
  | [] => e
  | o :: ops => let '(h', r) := h_step F h o in e_run F h' (e_step F h o h' r e) ops
  end.

(** [children()] from the front: the siblings up to the one that counts as the last (all of them when that one is
    not among them). *)
Fixpoint upto {T} (z : nat) (l : list (rose T)) : list (rose T) :=
  match l with
  | [] => []
  | x :: r => if Nat.eqb (r_id x) z then [x] else x :: upto z r
  end.

(** A search by range starts at a node and goes through its ancestors, inside out: the first that ends at or
    after [e], the outermost if there is none. *)
Definition reaching {T} (e : N) (n : node T) (above : list (node T)) : node T :=
  match find (fun m => N.leb e (s_end (node_span m))) above with
  | Some m => m
  | None => last above n
  end.

(** What [Node::last] answers, by identifier. *)
Definition last_named {T} (t : tree T) (i : nat) : option nat :=
  match tree_get t i with Some n => option_map fst (node_last (t_nodes t) n) | None => None end.

(** Taking from the front of one list and from the end of another ([true]: the front), until either is used up or
    both come to the same node: that one is the last. *)
Fixpoint both_ends {T} (sched : list bool) (front back : list (rose T)) : list (option (rose T)) :=
  match sched with
  | [] => []
  | from_front :: sched =>
    match front, last_error back with
    | x :: front', Some y =>
      if Nat.eqb (r_id x) (r_id y) then Some x :: both_ends sched [] []
      else if from_front then Some x :: both_ends sched front' back
      else Some y :: both_ends sched front (removelast back)
    | _, _ => None :: both_ends sched [] []
    end
  end.
