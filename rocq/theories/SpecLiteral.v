(** Specification: how a [tree!] literal is written. *)
From Verif Require Import Base Index Tree Builder Hist Print Macro.

Section Written.
Context {A T : Type}.
Variables (val : tt A -> T) (num : tt A -> N).

(** Expressions; lists of them between commas, with or without a last comma. *)
Inductive expression : tt A -> Prop :=
| ex_atom a : expression (TAtom a)
| ex_paren ts : listing ts -> expression (TParen ts)
with listing : list (tt A) -> Prop :=
| li_none : listing []
| li_last x : expression x -> listing [x]
| li_more x ts : expression x -> listing ts -> listing (x :: TComma :: ts).

(** [(a, b)]; and [(a, (b, c))]. *)
Definition is_pair (x : tt A) : Prop := exists a b, x = TParen [a; TComma; b].
Definition is_spanned (x : tt A) : Prop := exists a p, is_pair p /\ x = TParen [a; TComma; p].

(** The documented syntax: a value alone is an empty token, unless it is a pair; [(value, length)] is a token; [(value, (start, end))] a token
    with a span; [value => { .. }] a node with what is in the braces; [(value, (start, end)) => { .. }] a node with a span.  Items are separated by
    commas; a last comma is allowed. *)
Inductive item : lit T -> list (tt A) -> Prop :=
| it_empty x : expression x -> ~ is_pair x -> item (LEmpty (val x)) [x]
| it_token x n : expression x -> expression n -> ~ is_pair n -> item (LTok (val x) (num n)) [TParen [x; TComma; n]]
| it_span x s e : expression x -> expression s -> expression e ->
    item (LTokSpan (val x) (Span (num s) (num e))) [TParen [x; TComma; TParen [s; TComma; e]]]
| it_node x kids ts : expression x -> ~ is_spanned x -> written kids ts -> item (LNode (val x) kids) [x; TArrow; TBrace ts]
| it_node_span x s e kids ts : expression x -> expression s -> expression e -> written kids ts ->
    item (LNodeSpan (val x) (Span (num s) (num e)) kids) [TParen [x; TComma; TParen [s; TComma; e]]; TArrow; TBrace ts]
with written : list (lit T) -> list (tt A) -> Prop :=
| wr_none : written [] []
| wr_last l ts : item l ts -> written [l] ts
| wr_last_comma l ts : item l ts -> written [l] (ts ++ [TComma])
| wr_more l ts y ls rest : item l ts -> written (y :: ls) rest -> written (l :: y :: ls) (ts ++ TComma :: rest).

(** How deep invocations are nested: one for every item of a list, and inside a node those of its list. *)
Fixpoint levels1 (l : lit T) : nat :=
  match l with
  | LNode _ kids | LNodeSpan _ _ kids =>
      (fix go ls := match ls with [] => 1 | [x] => S (levels1 x) | x :: ls => S (Nat.max (levels1 x) (go ls)) end) kids
  | _ => 0
  end.
Fixpoint levels (ls : list (lit T)) : nat :=
  match ls with [] => 1 | [x] => S (levels1 x) | x :: ls => S (Nat.max (levels1 x) (levels ls)) end.
End Written.
