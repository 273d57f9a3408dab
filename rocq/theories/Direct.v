(** Navigation as equations between nodes of the link table. *)
From Coq Require Import Lia Sorted.
From Verif Require Import Base Pointer Index Tree Builder Hist Node Iter Spec Rep TreeRep Enum WalkThms Nav.
From Verif Require Order Walk.

Section Direct.
Context {T : Type}.
Variable F : flavor.
Variable ops : list (op T).
Variable t : tree T.
Variable l : list (rose T).
Hypothesis Hfin : finished F ops t l.
Notation nodes := (t_nodes t).
Let Hrep : tree_rep t l := WalkThms.fin_rep F ops t l Hfin.

Definition nd (o : option (rose T)) : option (node T) :=
  match o with None => None | Some x => tree_get t (r_id x) end.

Lemma get_id i n : tree_get t i = Some n -> fst n = i.
Proof.
  unfold tree_get, node_at. destruct (nth_error _ _); [|discriminate]. intros E. injection E as <-. auto.
Qed.
Lemma get_rose i n : tree_get t i = Some n -> exists x, In x (preorder_list l) /\ r_id x = i.
Proof.
  unfold tree_get, node_at. intros E. destruct (nth_error nodes i) eqn:E1; [|discriminate].
  apply (preorder_of_id t l i Hrep). apply nth_error_Some. congruence.
Qed.
Lemma get_some x : In x (preorder_list l) -> exists n, tree_get t (r_id x) = Some n.
Proof. intros H. destruct (fin_get F ops t l Hfin x H) as (n & E & _). eauto. Qed.
Lemma get_inj x y n : In x (preorder_list l) -> In y (preorder_list l) ->
  tree_get t (r_id x) = Some n -> tree_get t (r_id y) = Some n -> x = y.
Proof.
  intros Hx Hy E1 E2. eapply preorder_id_inj; eauto. apply get_id in E1. apply get_id in E2. congruence.
Qed.

Lemma nav p s1 x s2 n : In (p, s1 ++ x :: s2) (sibling_lists l) -> tree_get t (r_id x) = Some n ->
  node_parent nodes n = nd p /\ node_prev nodes n = nd (last_error s1) /\
  node_next nodes n = nd (hd_error s2) /\ node_first nodes n = nd (hd_error (r_kids x)).
Proof.
  intros Hs E. pose proof (at_node t l Hrep _ _ _ _ _ Hs E) as ->.
  unfold node_parent, node_prev, node_next, node_first, links_of, nd, tree_get. cbn [snd l_parent l_prev l_next l_first].
  rewrite last_error_id, !hd_error_id. repeat split.
  - destruct p; auto.
  - destruct (last_error s1); auto.
  - destruct (hd_error s2); auto.
  - destruct (hd_error (r_kids x)); auto.
Qed.

Lemma nd_none o : (forall x, o = Some x -> In x (preorder_list l)) -> (nd o = None <-> o = None).
Proof.
  intros H. destruct o as [x|]; simpl; [|tauto]. destruct (get_some x (H _ eq_refl)) as [n ->]. split; discriminate.
Qed.
Lemma nd_some o x n : (forall x, o = Some x -> In x (preorder_list l)) -> In x (preorder_list l) ->
  tree_get t (r_id x) = Some n -> (nd o = Some n <-> o = Some x).
Proof.
  intros H Hx E. split; [|intros ->; auto]. destruct o as [y|]; simpl; [|discriminate].
  intros E2. f_equal. eapply get_inj; eauto.
Qed.

Lemma same_list p s1 x s2 p' s1' s2' :
  In (p, s1 ++ x :: s2) (sibling_lists l) -> In (p', s1' ++ x :: s2') (sibling_lists l) -> p = p'.
Proof.
  intros H1 H2. assert (Hx : In x (preorder_list l)) by (eapply sibling_list_in; [apply H1|apply in_app_iff; simpl; auto]).
  destruct (get_some x Hx) as [n E].
  destruct (nav _ _ _ _ _ H1 E) as (A1 & _). destruct (nav _ _ _ _ _ H2 E) as (A2 & _). rewrite A1 in A2.
  pose proof (parent_in l _ _ H1) as P1. pose proof (parent_in l _ _ H2) as P2.
  destruct p' as [y|].
  - destruct (get_some y (P2 _ eq_refl)) as [m Em]. simpl in A2. rewrite Em in A2.
    apply (nd_some p y m P1 (P2 _ eq_refl) Em); auto.
  - simpl in A2. apply (nd_none p P1); auto.
Qed.
Lemma parent_list p s p' : In (p, s) (sibling_lists l) -> In (p', s) (sibling_lists l) -> s <> [] -> p = p'.
Proof.
  destruct s as [|x s]; [congruence|]. intros H1 H2 _. apply (same_list p [] x s p' [] s); auto.
Qed.
Lemma list_of p s s' : In (p, s) (sibling_lists l) -> In (p, s') (sibling_lists l) -> s = s'.
Proof.
  intros [E|H1] [E'|H2].
  - congruence.
  - apply in_map_iff in H2 as (q & E2 & _). congruence.
  - apply in_map_iff in H1 as (q & E2 & _). congruence.
  - apply in_map_iff in H1 as (q & E1 & _). apply in_map_iff in H2 as (q2 & E2 & _). congruence.
Qed.

Lemma items_exact (items : list (node T)) p s : In (p, s) (sibling_lists l) ->
  Forall2 (Walk.shows nodes) items s ->
  StronglySorted lt (map fst items) /\
  forall m, In m items <-> (tree_get t (fst m) = Some m /\ node_parent nodes m = nd p).
Proof.
  intros Hs HF. assert (Hids : map fst items = map r_id s).
  { clear - HF. induction HF as [|n x items s [H _] _ IH]; simpl; auto. f_equal; auto.
    unfold node_at in H. destruct (nth_error _ _); [|discriminate]. injection H as <-. auto. }
  split.
  - rewrite Hids. eapply Order.document_up; eauto. apply Hfin.
  - intros m. split.
    + intros Hm. assert (exists x, In x s /\ Walk.shows nodes m x) as (x & Hx & [Hsh _]).
      { clear - HF Hm. induction HF; [destruct Hm|]. destruct Hm as [<-|Hm]; simpl; eauto.
        destruct (IHHF Hm) as (z & ? & ?). eauto. }
      fold (tree_get t (r_id x)) in Hsh. pose proof (get_id _ _ Hsh) as Ei. rewrite Ei. split; auto.
      apply in_split in Hx as (s1 & s2 & ->). apply (nav _ _ _ _ _ Hs Hsh).
    + intros [Hm Hp]. destruct (get_rose _ _ Hm) as (x & Hx & Ei).
      destruct (in_sibling_lists _ _ Hx) as (p' & s1 & s2 & Hs'). rewrite <- Ei in Hm.
      destruct (nav _ _ _ _ _ Hs' Hm) as (Hp' & _). rewrite Hp in Hp'.
      assert (p = p') as <-.
      { pose proof (parent_in l _ _ Hs) as P1. pose proof (parent_in l _ _ Hs') as P2. destruct p' as [y|].
        - destruct (get_some y (P2 _ eq_refl)) as [k Ek]. simpl in Hp'. rewrite Ek in Hp'.
          apply (nd_some p y k P1 (P2 _ eq_refl) Ek); auto.
        - simpl in Hp'. apply (nd_none p P1); auto. }
      assert (Hxs : In x s).
      { rewrite (list_of _ _ _ Hs Hs'). apply in_app_iff. simpl; auto. }
      clear - HF Hxs Hm. induction HF as [|n y items s [H _] _ IH]; [destruct Hxs|].
      destruct Hxs as [->|Hxs]; simpl; [|auto]. left. fold (tree_get t (r_id x)) in H. congruence.
Qed.

Lemma node_list i n : tree_get t i = Some n -> exists x, In (Some x, r_kids x) (sibling_lists l) /\
  In x (preorder_list l) /\ tree_get t (r_id x) = Some n /\ is_children (node_children n) (Some x) (r_kids x).
Proof.
  intros E. destruct (get_rose _ _ E) as (x & Hx & Ei). subst i. exists x. split; [apply kids_sibling_list; auto|].
  split; auto. split; auto. apply (node_children_is t l Hrep); auto.
Qed.
End Direct.

