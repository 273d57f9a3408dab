(** Property theorems: what came out of a modify stays as it is (C57). *)
From Coq Require Import Lia.
From Verif Require Import Base Pointer Index Tree Builder Hist Node Iter Query Edit Spec SpecSpan SpecEq SpecEdit SpecRange Rep Marks Refine TreeRep
  Modify Layout PropsTree PropsSpan PropsSafe PropsEdit PropsQuery Settle PropsWith Demo.

(** A tree whose tokens do not run backwards: what any set of removals makes of it is reproduced exactly, to the last link, span and
    index entry, by a modify without changes. *)
Theorem C57_settles : forall T F (t : tree T) l c fuel t', made F t l -> forward_leaves l -> pointers F c -> modify fuel F c t = Ok t' ->
  forall fuel', tree_len t' + 2 <= fuel' -> modify fuel' F changeset_new t' = Ok t'.
Proof.
  intros T F t l c fuel t' Hm HL Hp E fuel' Hf. pose proof (made_facts T F t l Hm) as (HF & _).
  destruct (C33_outcome T F t l c Hm Hp) as (l' & n & s & He & _).
  destruct (second_run T F t l c fuel t' l' n s Hm Hp He E fuel' Hf) as (t2 & E2 & A1 & A2 & A3 & A4 & I1 & I2).
  rewrite E2. f_equal. destruct t2 as [a1 a2 a3 a4 a5], t' as [b1 b2 b3 b4 b5]. simpl in *. subst. f_equal.
  destruct HF as [_ [HI|HI]]; [|apply I2; auto]. rewrite (I1 HI).
  destruct (modified_facts T F t l c fuel _ l' n s Hm Hp He E) as (_ & _ & G). symmetry. apply (G HI HL).
Qed.
Print Assumptions C57_settles.

(** In particular trees that were built with the builder's own spans. *)
Theorem C57_built : forall T F (ops : list (op T)) t l c fuel t', plain_run F ops t l -> Forall (op_wf F) ops -> pointers F c -> modify fuel F c t = Ok t' ->
  forall fuel', tree_len t' + 2 <= fuel' -> modify fuel' F changeset_new t' = Ok t'.
Proof.
  intros T F ops t l c fuel t' H Hw Hp E. eapply C57_settles; eauto.
  - eapply made_finished; eauto. apply H.
  - destruct (plain_facts T F ops t l H) as (A & _). apply laid_tiles in A.
    assert (G : forall (xs : list (rose T)) s e, tile s (map (@r_span T) xs) e -> forall x, In x xs -> (s_start (r_span x) <= s_end (r_span x))%N).
    { induction xs as [|x xs IH]; intros s e Ht z Hz; [destruct Hz|]. simpl in Ht. destruct Ht as (H1 & H2 & H3).
      destruct Hz as [<-|Hz]; [lia|eauto]. }
    intros x Hx Hk. eapply G; [exact A|]. apply filter_In. split; auto. destruct x as [? ? ? ? ?]; simpl in *; subst; auto.
Qed.
Print Assumptions C57_built.

(** Any other tree: the second modify always succeeds and changes nothing but (perhaps) the index; the third changes nothing. *)
Theorem C57_twice : forall T F (t : tree T) l c fuel t1, made F t l -> pointers F c -> modify fuel F c t = Ok t1 ->
  exists t2, t_nodes t2 = t_nodes t1 /\ t_span t2 = t_span t1 /\ t_first t2 = t_first t1 /\ t_last t2 = t_last t1 /\
    forall fuel', tree_len t1 + 2 <= fuel' -> modify fuel' F changeset_new t1 = Ok t2 /\ modify fuel' F changeset_new t2 = Ok t2.
Proof.
  intros T F t l c fuel t1 Hm Hp E. pose proof (made_facts T F t l Hm) as (HF & _).
  destruct (C33_outcome T F t l c Hm Hp) as (l' & n & s & He & _).
  destruct (second_run T F t l c fuel t1 l' n s Hm Hp He E _ (le_n _)) as (t2 & E2 & A1 & A2 & A3 & A4 & _).
  exists t2. split; auto. split; auto. split; auto. split; auto. intros fuel' Hf.
  assert (Hp2 : pointers F changeset_new) by (intros i []).
  pose proof (made_modified F fuel c t l t1 l' n s Hm Hp He E) as Hm1.
  destruct (modified_facts T F t l c fuel t1 l' n s Hm Hp He E) as (_ & HL & _).
  split.
  - replace fuel' with (tree_len t1 + 2 + (fuel' - (tree_len t1 + 2))) by lia. apply modify_more; auto. discriminate.
  - eapply (C57_settles T F t1 l' changeset_new); eauto. unfold tree_len in *. rewrite A1. auto.
Qed.
Print Assumptions C57_twice.

(** It can take two: a token with a span that runs backwards is filed by the first modify and not by the second. *)
Definition backwards : list (op nat) := [OTokenWith 1 (Span 5 2)].
Theorem C57_once_refuted : exists t t1 t2, made flavor_default t [Nd 0 KLeaf 1 (Span 5 2) []] /\
  modify 10 flavor_default changeset_new t = Ok t1 /\ modify 10 flavor_default changeset_new t1 = Ok t2 /\ t_indexes t1 = [(0%N, 0)] /\ t_indexes t2 = [].
Proof.
  exists (tree_so_far flavor_default backwards). do 2 eexists. split.
  { apply (made_finished flavor_default backwards); [compute_finished|]. repeat constructor; simpl; discriminate. }
  split; [vm_compute; reflexivity|]. split; vm_compute; auto.
Qed.
Print Assumptions C57_once_refuted.

(** The hypotheses are met, with a removal that makes the tree bigger and leaves a childless inner node: root{a} without a. *)
Example C57_inhabited : exists t t1, made flavor_default t [Nd 0 KOpen 0 (Span 0 1) [Nd 1 KLeaf 1 (Span 0 1) []]] /\
  plain_run flavor_default only_child t [Nd 0 KOpen 0 (Span 0 1) [Nd 1 KLeaf 1 (Span 0 1) []]] /\ Forall (op_wf flavor_default) only_child /\
  forward_leaves [Nd 0 KOpen 0 (Span 0 1) [Nd 1 KLeaf 1 (Span 0 1) []]] /\ pointers flavor_default (changeset_remove 1 changeset_new) /\
  modify 10 flavor_default (changeset_remove 1 changeset_new) t = Ok t1 /\ tree_len t1 = 3 /\ t <> t1 /\ modify 5 flavor_default changeset_new t1 = Ok t1.
Proof.
  assert (Hpl : plain_run flavor_default only_child (tree_so_far flavor_default only_child) [Nd 0 KOpen 0 (Span 0 1) [Nd 1 KLeaf 1 (Span 0 1) []]]).
  { split; [discriminate|]. split; [|vm_compute; repeat split; intros; discriminate]. compute_finished. }
  exists (tree_so_far flavor_default only_child). eexists. split.
  { apply (made_finished flavor_default only_child); [exact (proj1 (proj2 Hpl))|]. repeat constructor; discriminate. }
  split; [exact Hpl|]. split; [repeat constructor; discriminate|]. split.
  { intros x Hx _. repeat destruct Hx as [<-|Hx]; try contradiction; simpl; lia. }
  split; [intros i [<-|[]]; vm_compute; reflexivity|]. split; [vm_compute; reflexivity|]. split; [reflexivity|]. split; [vm_compute; discriminate|].
  vm_compute. reflexivity.
Qed.
