(** Specification: the document a [tree!] literal depicts. *)
From Verif Require Import Base Index Tree Builder Hist Node Iter Print Spec.

(** Same values, same nesting; tokens have the given length or span. *)
Inductive depicts {T} (F : flavor) : lit T -> rose T -> Prop :=
| dp_empty d i s : depicts F (LEmpty d) (Nd i KLeaf d (Span s s) [])
| dp_tok d len i s e : (if len_is_empty F len then e = s else e = s + len)%N ->
    depicts F (LTok d len) (Nd i KLeaf d (Span s e) [])
| dp_tok_span d sp i : depicts F (LTokSpan d sp) (Nd i KLeaf d sp [])
| dp_node d ls i sp kids : Forall2 (depicts F) ls kids -> depicts F (LNode d ls) (Nd i KOpen d sp kids)
| dp_node_span d sp ls i sp' kids : Forall2 (depicts F) ls kids -> (ls = [] -> sp' = sp) ->
    depicts F (LNodeSpan d sp ls) (Nd i KOpen d sp' kids).

(** Number of nodes, and length of the text, of a literal. *)
Fixpoint lit_size {T} (l : lit T) : nat :=
  match l with
  | LEmpty _ | LTok _ _ | LTokSpan _ _ => 1
  | LNode _ ls | LNodeSpan _ _ ls => S (list_sum (map lit_size ls))
  end.
Definition sumN (l : list N) : N := fold_right N.add 0%N l.
Fixpoint lit_len {T} (F : flavor) (l : lit T) : N :=
  match l with
  | LTok _ len => if len_is_empty F len then 0%N else len
  | LNode _ ls | LNodeSpan _ _ ls => sumN (map (lit_len F) ls)
  | _ => 0%N
  end.
(** No explicit spans. *)
Fixpoint span_free {T} (l : lit T) : Prop :=
  match l with
  | LEmpty _ | LTok _ _ => True
  | LNode _ ls => fold_right (fun x P => span_free x /\ P) True ls
  | LTokSpan _ _ | LNodeSpan _ _ _ => False
  end.
