(** Specification: where a walk that starts at a node goes, when nodes may name a parent other than the node among whose children they are read. *)
Set Implicit Arguments.
From Verif Require Import Base Index Tree Node Iter Spec SpecTour.

(** A place in a document: a node with its later siblings, then the node that it is a child of with its later siblings, and so on, outwards. *)
Definition place (T : Type) : Type := list (rose T * list (rose T)).
Inductive located {T} (l : list (rose T)) : place T -> Prop :=
| loc_root s1 x s2 : l = s1 ++ x :: s2 -> located l [(x, s2)]
| loc_child y s c s1 x s2 : located l ((y, s) :: c) -> r_kids y = s1 ++ x :: s2 -> located l ((x, s2) :: (y, s) :: c).

(** The walk has climbed to the node [at_] at depth [d]: this node is visited on the way up, then its later siblings are toured, and the walk climbs on from
    where that ends.  Without later siblings the walk climbs to the parent that the node names.  The enclosing nodes
    that are climbed past are not visited. *)
Fixpoint onward {T} (parent : nat -> option nat) (at_ : option nat) (d : Z) (c : place T) : visits (T := T) :=
  match c with
  | [] => []
  | (y, later) :: c =>
    if opt_nat_eqb at_ (Some (r_id y)) then
      (d, Up, y) ::
      match later with
      | [] => onward parent (parent (r_id y)) (d - 1)%Z c
      | _ => let '(tr, (at', d')) := tour_row parent Next d later in tr ++ onward parent at' d' c
      end
    else onward parent at_ d c
  end.

(** The visits of [n.walk()]: [n] and its later siblings are toured, and so on outwards. *)
Definition tour_at {T} (parent : nat -> option nat) (x : rose T) (later : list (rose T)) (above : place T) : visits (T := T) :=
  let '(tr, (at_, d)) := tour_row parent Next 0%Z (x :: later) in tr ++ onward parent at_ d above.

(** [inside()]: the first visit, and those that follow as long as the depth is above zero. *)
Fixpoint deeper_visits {T} (tr : visits (T := T)) : visits (T := T) :=
  match tr with
  | (d, e, x) :: r => if (0 <? d)%Z then (d, e, x) :: deeper_visits r else []
  | [] => []
  end.
Definition confined {T} (tr : visits (T := T)) : visits (T := T) :=
  match tr with v :: r => v :: deeper_visits r | [] => [] end.

(** A walk, asked in its four forms, makes the visits [tr]. *)
Definition makes {T} (F : flavor) (t : tree T) (w : walk_it) (tr : visits (T := T)) : Prop :=
  (exists items, enumerates (total (walk_events_next F (t_nodes t))) w items /\
     map (fun i => (fst i, view (snd i))) items = map (fun v => (snd (fst v), rview (snd v))) tr) /\
  (exists items, enumerates (walk_depths_next F (t_nodes t)) w items /\
     map (fun i => (fst i, view (snd i))) items = map (fun v => (fst (fst v), rview (snd v))) (filter downwards tr)) /\
  enumerates_nodes (walk_next F (t_nodes t)) w (map snd (filter downwards tr)) /\
  enumerates_nodes (inside_next F (t_nodes t)) w (map snd (filter downwards (confined tr))).

(** [find_preceding(p)] in terms of what [ancestors()], [prev()] and [last()] answer; [p] may keep a state.
    Through the nodes that [ancestors()] lists: the first [prev()] that satisfies [p]. *)
Fixpoint search_up {T St} (ns : list (links T)) (p : St -> node T -> St * bool) (st : St) (chain : list (node T)) : St * option (node T) :=
  match chain with
  | [] => (st, None)
  | n :: chain =>
    match node_prev ns n with
    | None => search_up ns p st chain
    | Some m => let '(st, ok) := p st m in if ok then (st, Some m) else search_up ns p st chain
    end
  end.
(** From there, [last()] as long as it satisfies [p]. *)
Inductive search_down {T St} (ns : list (links T)) (p : St -> node T -> St * bool) : St -> node T -> St -> node T -> Prop :=
| sd_none st n : node_last ns n = None -> search_down ns p st n st n
| sd_stop st st' n m : node_last ns n = Some m -> p st m = (st', false) -> search_down ns p st n st' n
| sd_go st st' st'' n m r : node_last ns n = Some m -> p st m = (st', true) -> search_down ns p st' m st'' r -> search_down ns p st n st'' r.

(** [skip_tokens()]: each call makes calls of the same kind on the iterator below; those answer with childless nodes until one answers
    with a node that has children, or with nothing: that is the answer. *)
Definition skipped {T} (o : option (node T)) (answers : list (option (node T))) : Prop :=
  exists pre, answers = map Some pre ++ [o] /\ Forall (fun n => has_children n = false) pre /\
    match o with Some n => has_children n = true | None => True end.
(** The calls below, for the calls [sched] above, each answered with the group of answers below. *)
Fixpoint calls_below {A} (sched : list bool) (groups : list (list A)) : list bool :=
  match sched, groups with
  | b :: sched, g :: groups => repeat b (length g) ++ calls_below sched groups
  | _, _ => []
  end.
