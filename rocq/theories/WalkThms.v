(** Walks of finished trees, in terms of the specification. *)
From Coq Require Import Lia Permutation.
From Verif Require Import Base Pointer Index Tree Builder Hist Node Iter Spec Rep Marks Refine
  TreeRep Enum Walk WalkTree Bounds.
From Verif Require Export WalkGen.

Section Thms.
Context {T : Type}.
Variable F : flavor.
Variable ops : list (op T).
Variable t : tree T.
Variable l : list (rose T).
Hypothesis Hfin : finished F ops t l.

Lemma fin_rep : tree_rep t l.
Proof. destruct Hfin as (H1 & H2 & H3 & H4). eapply built_rep; eauto. Qed.
Lemma fin_fits : fits F t.
Proof. apply Hfin. Qed.
Lemma fin_width : (N.of_nat (length (t_nodes t)) <= int_max F (fl_width F))%N.
Proof. destruct Hfin as (H1 & H2 & H3 & H4). eapply built_bounded; eauto. Qed.
Lemma fin_good : good F t l.
Proof. exact (conj fin_rep (conj fin_fits fin_width)). Qed.

Definition fin_node_id := g_fin_node_id F t l fin_good.
Definition shows_view := g_shows_view t.
Definition fin_get := g_fin_get F t l fin_good.
Definition get_shows := g_get_shows F t l fin_good.
Definition walk_events_thm := g_walk_events_thm F t l fin_good.
Definition walk_thm := g_walk_thm F t l fin_good.
Definition walk_depths_thm := g_walk_depths_thm F t l fin_good.
Definition node_walk_id := g_node_walk_id F t l fin_good.
Definition node_walk_events_thm := g_node_walk_events_thm F t l fin_good.
Definition node_walk_depths_thm := g_node_walk_depths_thm F t l fin_good.
Definition node_walk_thm := g_node_walk_thm F t l fin_good.
Definition node_walk_from_thm := g_node_walk_from_thm F t l fin_good.
Definition sub_rep := g_sub_rep F t l fin_good.
Definition inside_from := g_inside_from F t l fin_good.
Definition inside_leave := g_inside_leave F t l fin_good.
End Thms.
