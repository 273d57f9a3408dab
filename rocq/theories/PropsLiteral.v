(** Property theorems: every [tree!] literal is read in one way (C72). *)
From Coq Require Import Lia.
From Verif Require Import Base Index Tree Builder Hist Print Macro Spec SpecMacro SpecLiteral Demo PropsMacro Literal.
Open Scope nat_scope.

(** ** C72 *)

(** The macro takes a sequence of token trees exactly if it is a literal in the documented syntax that needs no more nested invocations than allowed;
    it expands to the calls that the literal stands for. *)
Theorem C72_accepts : forall A T (val : tt A -> T) num limit ts ops,
  macro_calls val num limit ts = Some ops <-> exists ls, written val num ls ts /\ ops = flat_map expand ls /\ levels ls <= limit.
Proof. intros A T val num limit. apply all_exact. Qed.
Print Assumptions C72_accepts.

(** It can be read in one way only. *)
Theorem C72_one : forall A T (val : tt A -> T) num ls ls' ts, written val num ls ts -> written val num ls' ts -> ls = ls'.
Proof. intros A T val num. apply written_one. Qed.
Print Assumptions C72_one.

(** The tree: the document of the literal, or [Error::Overflow]. *)
Theorem C72_tree : forall A T (val : tt A -> T) num F limit ls ts, vec_flavor F -> written val num ls ts -> levels ls <= limit ->
  tree_invocation val num F (S limit) ts = Some (Err Overflow) \/
  exists t l, tree_invocation val num F (S limit) ts = Some (Ok t) /\ builds F (flat_map expand ls) t /\ document F (flat_map expand ls) l /\
    Forall2 (depicts F) ls l /\ map r_id (preorder_list l) = seq 0 (tree_len t).
Proof.
  intros A T val num F limit ls ts HF Hw Hv. assert (E : macro_calls val num limit ts = Some (flat_map expand ls)) by (apply all_exact; eauto).
  assert (Et : tree_invocation val num F (S limit) ts = Some (tree_macro F ls)) by (unfold tree_invocation; rewrite E; reflexivity). rewrite Et.
  destruct (C41_tree T F ls HF) as [E1|(t & l & E1 & R)]; rewrite E1; [auto|]. right. exists t, l. auto.
Qed.
Print Assumptions C72_tree.

(** A literal that needs more does not compile: in particular one with more items in a row than the limit ([recursion_limit], 128 if the user does not set it). *)
Theorem C72_limit : forall A T (val : tt A -> T) num F limit ls ts, written val num ls ts -> limit < levels ls ->
  tree_invocation val num F (S limit) ts = None.
Proof.
  intros A T val num F limit ls ts Hw Hv. unfold tree_invocation. destruct (macro_calls val num limit ts) as [ops|] eqn:E; auto. exfalso.
  apply all_exact in E as (ls' & Hw' & _ & Hv'). rewrite (written_one val num ls ls' ts Hw Hw') in Hv. lia.
Qed.
Print Assumptions C72_limit.
Theorem C72_wide : forall A T (val : tt A -> T) num F limit ls ts, written val num ls ts -> limit < length ls ->
  tree_invocation val num F (S limit) ts = None.
Proof. intros A T val num F limit ls ts Hw Hl. eapply C72_limit; eauto. pose proof (levels_long ls). lia. Qed.
Print Assumptions C72_wide.

(** A last comma changes nothing. *)
Theorem C72_comma : forall A T (val : tt A -> T) num ls ts, written val num ls ts -> ls <> [] ->
  written val num ls (ts ++ [TComma]) \/ exists ts', ts = ts' ++ [TComma] /\ written val num ls ts'.
Proof.
  intros A T val num ls ts H. induction H as [|l ts H|l ts H|l ts y ls rest H Hw IH]; intros Hn; [congruence| | |].
  - left. apply wr_last_comma; auto.
  - right. exists ts. split; auto. apply wr_last; auto.
  - destruct IH as [G|(ts' & -> & G)]; [discriminate| |].
    + left. rewrite <- app_assoc. cbn [app]. apply wr_more; auto.
    + right. exists (ts ++ TComma :: ts'). rewrite <- app_assoc. split; auto. apply wr_more; auto.
Qed.
Print Assumptions C72_comma.

(** Every document of tokens and nodes can be written, when every value and every number has an expression that is not a pair. *)
Theorem C72_every : forall A T (val : tt A -> T) num, (forall d, exists a, val (TAtom a) = d) -> (forall n, exists a, num (TAtom a) = n) ->
  forall ls, exists ts, written val num ls ts.
Proof.
  intros A T val num Hv Hn. assert (Na : forall a : A, ~ is_pair (TAtom a)) by (intros a (x & y & E); discriminate).
  assert (Ns : forall a : A, ~ is_spanned (TAtom a)) by (intros a (x & y & _ & E); discriminate).
  assert (L : forall ls, Forall (fun l => exists ts, item val num l ts) ls -> exists ts, written val num ls ts).
  { induction 1 as [|l ls (ts & H) Hs (rest & IH)]; [exists []; constructor|]. destruct ls as [|y ls]; [exists ts; constructor; auto|].
    exists (ts ++ TComma :: rest). apply wr_more; auto. }
  assert (G : forall l : lit T, exists ts, item val num l ts).
  { induction l as [d|d len|d sp|d ls IH|d sp ls IH] using lit_ind'; destruct (Hv d) as (a & <-).
    - exists [TAtom a]. apply it_empty; auto. constructor.
    - destruct (Hn len) as (b & <-). exists [TParen [TAtom a; TComma; TAtom b]]. apply it_token; auto; constructor.
    - destruct sp as [s e]. destruct (Hn s) as (b & <-). destruct (Hn e) as (c & <-). exists [TParen [TAtom a; TComma; TParen [TAtom b; TComma; TAtom c]]]. apply it_span; constructor.
    - destruct (L ls IH) as (ts & Hw). exists [TAtom a; TArrow; TBrace ts]. apply it_node; auto. constructor.
    - destruct sp as [s e]. destruct (Hn s) as (b & <-). destruct (Hn e) as (c & <-). destruct (L ls IH) as (ts & Hw).
      exists [TParen [TAtom a; TComma; TParen [TAtom b; TComma; TAtom c]]; TArrow; TBrace ts]. apply it_node_span; auto; constructor. }
  intros ls. apply L. apply Forall_forall. auto.
Qed.
Print Assumptions C72_every.

(** The literal of the documentation of [tree!] (lines 33-44); and how pairs are read: [(1, 2)] is a token, [((1), 2,)] (a last comma inside) is the tuple as a value,
    [(1, 2) => {}] a node with the pair as its value, [(1, (2, 3)) => {}] a node with a span. *)
Definition paren_value (x : tt nat) : nat * nat :=
  match x with TAtom a => (a, 0) | TParen [TAtom a; TComma; TAtom b] | TParen [TAtom a; TComma; TAtom b; TComma] => (a, b) | _ => (0, 0) end.
Definition paren_number (x : tt nat) : N := match x with TAtom a => N.of_nat a | _ => 0%N end.
Example C72_inhabited :
  macro_calls paren_value paren_number 4
    [TAtom 10; TArrow; TBrace [TAtom 11; TArrow; TBrace [TParen [TAtom 1; TComma; TAtom 1]]; TComma; TParen [TAtom 2; TComma; TAtom 3]; TComma;
       TAtom 11; TArrow; TBrace [TParen [TAtom 1; TComma; TAtom 2]; TComma; TAtom 1]]]
  = None /\
  macro_calls paren_value paren_number 6
    [TAtom 10; TArrow; TBrace [TAtom 11; TArrow; TBrace [TParen [TAtom 1; TComma; TAtom 1]]; TComma; TParen [TAtom 2; TComma; TAtom 3]; TComma;
       TAtom 11; TArrow; TBrace [TParen [TAtom 1; TComma; TAtom 2]; TComma; TAtom 1]]]
  = Some [OOpen (10, 0); OOpen (11, 0); OToken (1, 0) 1; OClose; OToken (2, 0) 3; OOpen (11, 0); OToken (1, 0) 2; OTokenEmpty (1, 0); OClose; OClose] /\
  macro_calls paren_value paren_number 5
    [TParen [TAtom 1; TComma; TAtom 2]; TComma; TParen [TAtom 1; TComma; TAtom 2; TComma]; TComma; TParen [TAtom 1; TComma; TAtom 2]; TArrow; TBrace []; TComma;
     TParen [TAtom 1; TComma; TParen [TAtom 2; TComma; TAtom 3]]; TArrow; TBrace []; TComma]
  = Some [OToken (1, 0) 2; OTokenEmpty (1, 2); OOpen (1, 2); OClose; OOpenWith (1, 0) (Span 2 3); OClose].
Proof. split; [vm_compute; reflexivity|]. split; vm_compute; reflexivity. Qed.
