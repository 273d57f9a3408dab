(** C77: capacity. *)
From Coq Require Import Lia List Arith.
Import ListNotations.
From Verif Require Import Base Pointer Index Tree Builder Hist Node Iter Query Edit Capacity Spec SpecEdit Rep AllHist Demo PropsTree PropsSafe PropsEdit.
Open Scope nat_scope.

Lemma push_cap v v' : vec_push v v' -> v_len v' = S (v_len v) /\ (v_len v <= v_cap v -> v_len v' <= v_cap v' /\ v_cap v <= v_cap v') /\ (v_len v < v_cap v -> v_cap v' = v_cap v).
Proof. unfold vec_push. intros [-> H]. destruct (Nat.ltb_spec (v_len v) (v_cap v)); repeat split; intros; lia. Qed.
Lemma pushes_cap n v v' : pushes n v v' -> v_len v <= v_cap v ->
  v_len v' = n + v_len v /\ v_len v' <= v_cap v' /\ v_cap v <= v_cap v' /\ (n + v_len v <= v_cap v -> v_cap v' = v_cap v).
Proof.
  induction 1 as [v|n v v1 v2 H _ IH]; intros L; [repeat split; auto|]. destruct (push_cap _ _ H) as (E & A & B). destruct (A L) as [A1 A2].
  destruct (IH A1) as (I1 & I2 & I3 & I4). repeat split; try lia.
Qed.
Lemma pushes_make n v : v_len v <= v_cap v -> exists v', pushes n v v'.
Proof.
  revert v. induction n as [|n IH]; intros v L; [eexists; constructor|].
  destruct (IH (Room (S (v_len v)) (Nat.max (S (v_len v)) (v_cap v)))) as [v' Hv']; [cbn [v_len v_cap]; lia|]. exists v'. apply push_more with (2 := Hv').
  split; [reflexivity|]. destruct (Nat.ltb_spec (v_len v) (v_cap v)); cbn [v_cap]; lia.
Qed.
Lemma so_far_grows T F (ops : list (op T)) o : vec_flavor F -> tree_len (tree_so_far F ops) <= tree_len (tree_so_far F (ops ++ [o])).
Proof. intros HF. pose proof (C10_fresh T F ops o HF) as G. cbv zeta in G. destruct (snd _); lia. Qed.

(** A builder always has room for the nodes it has, whatever calls were made, and in every clone. *)
Theorem C77_builder : forall T F (ops : list (op T)) v, vec_flavor F -> builder_vec F ops v ->
  v_len v = tree_len (tree_so_far F ops) /\ tree_len (tree_so_far F ops) <= capacity v.
Proof.
  intros T F ops v HF H. unfold capacity. induction H as [|ops o v v' H [E L] P|ops v v' H [E L] [C1 C2]]; [split; auto| |split; lia].
  unfold call_vec in P. pose proof (so_far_grows T F ops o HF) as G. change (b_tree (w_builder (run_world F (ops ++ [o])))) with (tree_so_far F (ops ++ [o])) in P.
  change (b_tree (w_builder (run_world F ops))) with (tree_so_far F ops) in P.
  destruct (pushes_cap _ _ _ P ltac:(lia)) as (P1 & P2 & _). split; lia.
Qed.
Print Assumptions C77_builder.

(** A tree always has room for its nodes: built, new, cloned, changed in place or made by [modify]. *)
Theorem C77_room : forall T F (t : tree T) v, vec_flavor F -> tree_vec F t v -> v_len v = tree_len t /\ tree_len t <= capacity v.
Proof.
  intros T F t v HF H. unfold capacity. induction H as [|ops t v H B|t v v' H [E L] [C1 C2]|t v n x t' old H [E L] R|fuel c t t' v v0 v' H [E L] (M & [W1 W2] & P)].
  - split; auto.
  - apply builds_so_far in B as ->. apply C77_builder; auto.
  - split; lia.
  - unfold tree_replace, node_replace in R. injection R as <- _.
    match goal with |- _ = tree_len ?u /\ _ => assert (G : tree_len u = tree_len t) end.
    { unfold tree_len; simpl; rewrite ?length_upd; auto. } rewrite G. auto.
  - destruct (pushes_cap _ _ _ P ltac:(lia)) as (P1 & P2 & _). split; lia.
Qed.
Print Assumptions C77_room.

(** Calls that give no new node allocate nothing; calls that give one allocate only if the capacity is used up; no call gives room back. *)
Theorem C77_calls : forall T F (ops : list (op T)) o v v', vec_flavor F -> builder_vec F ops v ->
  call_vec F ops o v v' ->
  capacity v <= capacity v' /\
  (tree_len (tree_so_far F ops) < capacity v -> capacity v' = capacity v) /\
  ((forall id, snd (step F (run_world F ops) o) <> RNode id) -> v' = v).
Proof.
  intros T F ops o v v' HF H P. unfold capacity. unfold call_vec in P. change (b_tree (w_builder (run_world F (ops ++ [o])))) with (tree_so_far F (ops ++ [o])) in P. change (b_tree (w_builder (run_world F ops))) with (tree_so_far F ops) in P. destruct (C77_builder T F ops v HF H) as [E L]. unfold capacity in L. destruct (pushes_cap _ _ _ P ltac:(lia)) as (P1 & P2 & P3 & P4).
  pose proof (C10_fresh T F ops o HF) as G. cbv zeta in G. split; auto. split.
  - intros R. apply P4. destruct (snd _); lia.
  - intros N0. assert (Q : tree_len (tree_so_far F (ops ++ [o])) - tree_len (tree_so_far F ops) = 0) by (destruct (snd _) as [|id| | | |]; try lia; exfalso; apply (N0 id); auto).
    rewrite Q in P. inversion P; auto.
Qed.
Print Assumptions C77_calls.
(** A builder that is no clone has allocated something exactly if it has a node: failing calls, checkpoints and cursors allocate nothing. *)
Inductive called_vec {T} (F : flavor) : list (op T) -> vec -> Prop :=
| cv_new : called_vec F [] vec_empty
| cv_call ops o v v' : called_vec F ops v -> call_vec F ops o v v' -> called_vec F (ops ++ [o]) v'.
Theorem C77_nothing : forall T F (ops : list (op T)) v, vec_flavor F -> called_vec F ops v ->
  builder_vec F ops v /\ (capacity v = 0 <-> tree_len (tree_so_far F ops) = 0).
Proof.
  intros T F ops v HF H. induction H as [|ops o v v' H [B IH] P]; [split; [constructor|split; auto]|].
  assert (B' : builder_vec F (ops ++ [o]) v') by (apply bv_call with v; auto). split; auto.
  destruct (C77_builder T F _ _ HF B) as [E L]. destruct (C77_builder T F _ _ HF B') as [E' L']. destruct (C77_calls T F ops o v v' HF B P) as (C1 & C2 & C3).
  split; intros Z0; [lia|]. unfold capacity in *. pose proof (so_far_grows T F ops o HF) as G.
  unfold call_vec in P. change (b_tree (w_builder (run_world F (ops ++ [o])))) with (tree_so_far F (ops ++ [o])) in P. change (b_tree (w_builder (run_world F ops))) with (tree_so_far F ops) in P.
  rewrite Z0 in P. inversion P; subst. apply IH. lia.
Qed.
Print Assumptions C77_nothing.

(** [modify]: room for at least as much as the tree given, and if the result fits into that, no allocation after the first. *)
Theorem C77_modify : forall T F fuel c (t t' : tree T) v v0 v', vec_flavor F -> tree_vec F t v -> modify_vec fuel F c t v t' v0 v' ->
  capacity v <= capacity v' /\ tree_len t' <= capacity v' /\ (tree_len t' <= capacity v -> capacity v' = capacity v0).
Proof.
  intros T F fuel c t t' v v0 v' HF H (M & [W1 W2] & P). unfold capacity in *. destruct (pushes_cap _ _ _ P ltac:(lia)) as (P1 & P2 & P3 & P4).
  repeat split; try lia.
Qed.
Print Assumptions C77_modify.

(** It can be that it does not fit, although [modify] can only remove: the documented removal of an only child makes three nodes of two (C33), and the first allocation is too small. *)
Theorem C77_removal_refuted : exists (t t' : tree nat) v v0 v', tree_vec flavor_default t v /\
  modify_vec 10 flavor_default (changeset_remove 1 changeset_new) t v t' v0 v' /\ capacity v0 < capacity v'.
Proof.
  exists (tree_so_far flavor_default only_child). eexists. exists (Room 2 2), (Room 0 2), (Room 3 4). split; [|split; [split; [vm_compute; reflexivity|]|cbv; auto]].
  - apply tv_built with only_child; [|vm_compute; reflexivity].
    change only_child with ((([] ++ [OOpen 0]) ++ [OToken 1 1%N]) ++ [OClose]).
    apply bv_call with (Room 2 2); [apply bv_call with (Room 1 1); [apply bv_call with vec_empty; [constructor|]|]|].
    + apply push_more with (Room 1 1); [split; cbv; auto|constructor].
    + apply push_more with (Room 2 2); [split; cbv; auto|constructor].
    + constructor.
  - split; [split; auto|]. change (tree_len _) with 3.
    apply push_more with (Room 1 2); [split; cbv; auto|]. apply push_more with (Room 2 2); [split; cbv; auto|]. apply push_more with (Room 3 4); [split; cbv; auto|]. constructor.
Qed.
Print Assumptions C77_removal_refuted.

(** Every history has such a storage, and every [modify] of a tree with one: the statements speak of something.  With an allocator that doubles: *)
Theorem C77_exists : forall T F (ops : list (op T)), exists v, builder_vec F ops v.
Proof.
  intros T F ops. induction ops as [|o ops [v Hv]] using rev_ind; [exists vec_empty; constructor|].
  destruct (le_lt_dec (v_len v) (v_cap v)) as [L|L].
  - destruct (pushes_make (tree_len (b_tree (w_builder (run_world F (ops ++ [o])))) - tree_len (b_tree (w_builder (run_world F ops)))) v L) as [v' Hv']. exists v'. apply bv_call with v; auto.
  - destruct (pushes_make (tree_len (b_tree (w_builder (run_world F (ops ++ [o])))) - tree_len (b_tree (w_builder (run_world F ops)))) (Room (v_len v) (v_len v)) (le_n _)) as [v' Hv'].
    exists v'. apply bv_call with (Room (v_len v) (v_len v)); auto. apply bv_clone with v; auto. split; auto.
Qed.
Print Assumptions C77_exists.
Example C77_inhabited : tree_vec flavor_default (tree_so_far flavor_default only_child) (Room 2 4) /\ tree_vec flavor_default (tree_so_far flavor_default (@nil (op nat))) vec_empty.
Proof.
  split.
  - apply tv_built with only_child; [|vm_compute; reflexivity].
    change only_child with ((([] ++ [OOpen 0]) ++ [OToken 1 1%N]) ++ [OClose]).
    apply bv_call with (Room 2 4); [apply bv_call with (Room 1 4); [apply bv_call with vec_empty; [constructor|]|]|].
    + apply push_more with (Room 1 4); [split; cbv; auto|constructor].
    + apply push_more with (Room 2 4); [split; cbv; auto|constructor].
    + constructor.
  - apply tv_built with []; [constructor|vm_compute; reflexivity].
Qed.
