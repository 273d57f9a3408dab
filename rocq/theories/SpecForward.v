(** Specification: explicit spans. *)
From Verif Require Import Base Index Tree Builder Hist Node Iter Spec.
Local Open Scope N_scope.

Definition encloses (outer inner : span) : Prop :=
  s_start outer <= s_start inner /\ s_end inner <= s_end outer.

(** The nodes made with [token_with] and [close_at_with], with the span given. *)
Fixpoint given {T} (ops : list (op T)) (rs : list out) : list (nat * span) :=
  match ops, rs with
  | (OTokenWith _ sp | OCloseAtWith _ _ sp) :: ops, RNode id :: rs => (id, sp) :: given ops rs
  | _ :: ops, _ :: rs => given ops rs
  | _, _ => []
  end.
(** The nodes made with [open_with], with the span given. *)
Fixpoint opened_with {T} (ops : list (op T)) (rs : list out) : list (nat * span) :=
  match ops, rs with
  | OOpenWith _ sp :: ops, RNode id :: rs => (id, sp) :: opened_with ops rs
  | _ :: ops, _ :: rs => opened_with ops rs
  | _, _ => []
  end.

(** The calls go forward: from state [a] on, each span inserted starts at or after [c], where
    what was inserted before ends (or where the node being filled starts), and is not reversed;
    no [close_at_with].  [token], [open], .. insert at the cursor. *)
Definition made_wrapper {T} (a : doc T) : bool :=
  match last_error (a_cur a) with Some x => has_kids x | None => false end.
Fixpoint forward {T} (F : flavor) (c : N) (a : doc T) (ops : list (op T)) : Prop :=
  match ops with
  | [] => True
  | o :: ops =>
    match a_step F a o with
    | None => False
    | Some (a', r) =>
      match o, r with
      | (OToken _ _ | OTokenEmpty _ | OOpen _), RNode _ => c <= a_cursor a /\ forward F (a_cursor a') a' ops
      | OOpenWith _ sp, RNode _ => c <= s_start sp <= s_end sp /\ forward F (s_start sp) a' ops
      | OTokenWith _ sp, RNode _ => c <= s_start sp <= s_end sp /\ forward F (s_end sp) a' ops
      | OClose, RUnit => forward F (N.max c (a_cursor a')) a' ops
      | OCloseAt _ _, RNode _ =>
          if made_wrapper a' then forward F c a' ops
          else c <= a_cursor a /\ forward F (a_cursor a) a' ops
      | OCloseAtWith _ _ _, RNode _ => False
      | _, _ => forward F c a' ops
      end
    end
  end.

(** The siblings follow each other, gaps allowed, between [s] and [e]; and so inside. *)
Inductive ordered {T} : N -> rose T -> N -> Prop :=
| ord_node s s' e' e i k d kids : s <= s' -> s' <= e' -> e' <= e -> ordered_list s' kids e' ->
    ordered s (Nd i k d (Span s' e') kids) e
with ordered_list {T} : N -> list (rose T) -> N -> Prop :=
| ord_nil s e : s <= e -> ordered_list s [] e
| ord_cons s x m l e : ordered s x m -> ordered_list m l e -> ordered_list s (x :: l) e.
