(** Specification: one [Walk] asked in both ways, and continued in other forms (C56). *)
Set Implicit Arguments.
From Verif Require Import Base Tree Node Iter Spec.

(** [next()] or [next_with_depth()] (src/node/walk.rs lines 213-222 and 259-267). *)
Inductive ask := AskNode | AskDepth.

(** Asking one walk again and again; what it answers, and the walk afterwards. *)
Fixpoint ask_walk {T} (F : flavor) (nodes : list (links T)) (w : walk_it) (asks : list ask)
  : result (walk_it * list (option (option Z * node T))) :=
  match asks with
  | [] => Ok (w, [])
  | q :: asks =>
      let answer :=
        match q with
        | AskNode => match walk_next F nodes w with
                     | Ok (w, a) => Ok (w, option_map (fun n => (None, n)) a) | Err e => Err e | Diverge => Diverge end
        | AskDepth => match walk_depths_next F nodes w with
                      | Ok (w, a) => Ok (w, option_map (fun a => (Some (fst a), snd a)) a) | Err e => Err e | Diverge => Diverge end
        end in
      match answer with
      | Ok (w, a) =>
          match ask_walk F nodes w asks with
          | Ok (w, l) => Ok (w, a :: l) | Err e => Err e | Diverge => Diverge
          end
      | Err e => Err e
      | Diverge => Diverge
      end
  end.

(** The answers, when the nodes still to come are [xs]: each question takes the next one. *)
Fixpoint told {X} (xs : list (Z * X)) (asks : list ask) : list (option (option Z * X)) :=
  match asks with
  | [] => []
  | q :: asks =>
      match xs with
      | [] => None :: told [] asks
      | (d, x) :: xs => Some (match q with AskNode => None | AskDepth => Some d end, x) :: told xs asks
      end
  end.

(** What is left for [inside()] after [j] of the nodes of the trees [l] (siblings) have been taken: the rest of the tree that
    the walk is in.  A tree of one node that has been taken is over: then it is the whole next tree. *)
Fixpoint inside_rest {T} (l : list (rose T)) (j : nat) : list (rose T) :=
  match l with
  | [] => []
  | x :: l =>
      if j <=? length (preorder x) then
        match r_kids x, j with
        | [], S _ => match l with [] => [] | y :: _ => preorder y end
        | _, _ => skipn j (preorder x)
        end
      else inside_rest l (j - length (preorder x))
  end.
