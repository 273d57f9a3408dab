(** Specification of span layout: what "the spans tile the input" means.
    Knows nothing of the builder's state. *)
From Verif Require Import Base Index Tree Builder Hist Node Iter Spec.
Local Open Scope N_scope.

(** The spans follow each other without gap or overlap from [s] to [e]. *)
Fixpoint tile (s : N) (l : list span) (e : N) : Prop :=
  match l with
  | [] => s = e
  | sp :: l => s_start sp = s /\ s <= s_end sp /\ tile (s_end sp) l e
  end.

(** [laid s x e]: the node [x] covers exactly [s..e], and so on inside: its children
    tile it; a childless node that is not a token is a point. *)
Inductive laid {T} : N -> rose T -> N -> Prop :=
| laid_token s e i d : s <= e -> laid s (Nd i KLeaf d (Span s e) []) e
| laid_empty s i k d : laid s (Nd i k d (Span s s) []) s
| laid_node s e i k d x kids :
    laid_list s (x :: kids) e -> laid s (Nd i k d (Span s e) (x :: kids)) e
with laid_list {T} : N -> list (rose T) -> N -> Prop :=
| laid_nil s : laid_list s [] s
| laid_cons s x m l e : laid s x m -> laid_list m l e -> laid_list s (x :: l) e.

(** Histories of plain calls (no explicit spans, no set_cursor), with their
    results; [c] is the sum of the lengths of the tokens so far.  A token may have been
    refused for overflowing the index, but not for lack of pointers. *)
Fixpoint plain {T} (F : flavor) (c : N) (ops : list (op T)) (rs : list out) : Prop :=
  match ops, rs with
  | [], [] => True
  | OToken _ len :: ops, RNode _ :: rs => plain F (c + len) ops rs
  | OToken _ len :: ops, _ :: rs => ix_max F < c + len /\ plain F c ops rs
  | (OOpen _ | OClose | OTokenEmpty _ | OCheckpoint | OCloseAt _ _) :: ops, _ :: rs => plain F c ops rs
  | _, _ => False
  end.

(** The sum of the lengths of the accepted tokens. *)
Fixpoint total_len {T} (ops : list (op T)) (rs : list out) : N :=
  match ops, rs with
  | OToken _ len :: ops, RNode _ :: rs => len + total_len ops rs
  | _ :: ops, _ :: rs => total_len ops rs
  | _, _ => 0
  end.

(** Where each accepted token belongs: after the tokens before it. *)
Fixpoint token_spans {T} (c : N) (ops : list (op T)) (rs : list out) : list (nat * span) :=
  match ops, rs with
  | OToken _ len :: ops, RNode id :: rs => (id, Span c (c + len)) :: token_spans (c + len) ops rs
  | OTokenEmpty _ :: ops, RNode id :: rs => (id, Span c c) :: token_spans c ops rs
  | _ :: ops, _ :: rs => token_spans c ops rs
  | _, _ => []
  end.

(** The part of a text in a range. *)
Definition slice {B} (src : list B) (sp : span) : list B :=
  firstn (N.to_nat (s_end sp) - N.to_nat (s_start sp)) (skipn (N.to_nat (s_start sp)) src).

Definition childless {T} (n : node T) : bool := negb (has_children n).
