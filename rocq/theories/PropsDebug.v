(** Property theorems: what is shown of a tree determines it (C47). *)
From Coq Require Import Lia.
From Verif Require Import Base Pointer Index Tree Builder Hist Node Iter Query Print Spec SpecEq Rep Refine TreeRep
  Enum WalkThms Demo PropsTree PropsFused PropsEq.

(** [{:?}] of a tree lists its nodes in document order, each with its depth, value and span. *)
Theorem C47_debug : forall T F (ops : list (op T)) t l, finished F ops t l ->
  debug_tree F t = Ok (map (fun i => (fst i, (r_data (snd i), r_span (snd i)))) (flat_map (preorder_depth 0) l)).
Proof.
  intros T F ops t l H. destruct (C21_depths T F ops t l H) as (items & En & V).
  unfold debug_tree.
  assert (Hl : length items = length (t_nodes t)).
  { rewrite (tr_length _ _ (fin_rep F ops t l H)), <- preorder_depth_len.
    rewrite <- (map_length (fun i => (fst i, view (snd i)))), V, map_length. auto. }
  destruct (iter_collect_enumerates _ items (tree_walk t) (S (tree_len t)) En) as (s' & -> & _).
  { unfold tree_len. lia. }
  f_equal. clear -V. revert V. generalize (flat_map (preorder_depth 0) l). clear l.
  induction items as [|[k n] items IH]; intros [|[k' x] l] V; try discriminate; auto.
  simpl in V. injection V as -> _ D S _ V. simpl. rewrite (IH l V). unfold debug_node. rewrite D, S. auto.
Qed.
Print Assumptions C47_debug.

Lemma depths_erase {T} : forall (l1 l2 : list (rose T)),
  map (fun i => (fst i, (r_data (snd i), r_span (snd i)))) (flat_map (preorder_depth 0) l1) =
  map (fun i => (fst i, (r_data (snd i), r_span (snd i)))) (flat_map (preorder_depth 0) l2) <->
  map erase l1 = map erase l2.
Proof.
  intros l1 l2. split.
  - intros E.
    assert (EqD : forall n (m1 m2 : list (rose T)) k r1 r2, length (preorder_list m1) <= n ->
       (forall j x r, r1 = (j, x) :: r -> (j < k)%Z) -> (forall j x r, r2 = (j, x) :: r -> (j < k)%Z) ->
       map (fun i : Z * rose T => (fst i, (r_data (snd i), r_span (snd i)))) (flat_map (preorder_depth k) m1 ++ r1) =
       map (fun i => (fst i, (r_data (snd i), r_span (snd i)))) (flat_map (preorder_depth k) m2 ++ r2) ->
       map erase m1 = map erase m2 /\
       map (fun i => (fst i, (r_data (snd i), r_span (snd i)))) r1 = map (fun i => (fst i, (r_data (snd i), r_span (snd i)))) r2).
    { assert (A : forall k (m : list (rose T)) r, (forall j x r', r = (j, x) :: r' -> (j < k)%Z) ->
         forall j x r', flat_map (preorder_depth k) m ++ r = (j, x) :: r' -> (j < k + 1)%Z).
      { intros k [|[i kd d sp kids] m] r Hr j x r' Ee; simpl in Ee; [apply Hr in Ee; lia|injection Ee; intros; subst; lia]. }
      induction n as [|n IH]; intros m1 m2 k r1 r2 Hn A1 A2 G.
      - destruct m1 as [|[i kd d sp kids] m1]; [|simpl in Hn; lia]. destruct m2 as [|[i kd d sp kids] m2]; [auto|].
        destruct r1 as [|[j y] r1]; simpl in G; [discriminate|]. injection G; intros. specialize (A1 j y r1 eq_refl). lia.
      - destruct m1 as [|[i kd d sp kids] m1], m2 as [|[i2 kd2 d2 sp2 kids2] m2]; [auto| | |].
        + destruct r1 as [|[j y] r1]; simpl in G; [discriminate|]. injection G; intros. specialize (A1 j y r1 eq_refl). lia.
        + destruct r2 as [|[j y] r2]; simpl in G; [discriminate|]. injection G; intros. specialize (A2 j y r2 eq_refl). lia.
        + simpl in G. injection G as -> -> G. rewrite <- !app_assoc in G.
          unfold preorder_list in Hn. simpl in Hn. rewrite app_length in Hn.
          destruct (IH kids kids2 (k + 1)%Z _ _ ltac:(unfold preorder_list; lia) (A k m1 r1 A1) (A k m2 r2 A2) G) as [G1 G2].
          destruct (IH m1 m2 k r1 r2 ltac:(unfold preorder_list; lia) A1 A2 G2) as [G3 G4].
          simpl. rewrite G1, G3. auto. }
    destruct (EqD _ l1 l2 0%Z [] [] (le_n _)) as [G _]; auto; try discriminate. rewrite !app_nil_r. auto.
  - assert (G : forall n k (l1 l2 : list (rose T)), length (preorder_list l1) <= n -> map erase l1 = map erase l2 ->
       map (fun i => (fst i, (r_data (snd i), r_span (snd i)))) (flat_map (preorder_depth k) l1) =
       map (fun i => (fst i, (r_data (snd i), r_span (snd i)))) (flat_map (preorder_depth k) l2)).
    { clear. induction n as [|n IH]; intros k [|[i kd d sp kids] l1] [|[i2 kd2 d2 sp2 kids2] l2] Hn E; try discriminate; auto.
      - simpl in Hn. lia.
      - simpl in E. injection E as -> -> E1 E2. unfold preorder_list in Hn. simpl in Hn. rewrite app_length in Hn. simpl.
        rewrite !map_app. rewrite (IH (k + 1)%Z kids kids2), (IH k l1 l2); auto; unfold preorder_list; lia. }
    intros E. eapply G; eauto.
Qed.

(** Two trees, of whatever flavors and however built, are shown alike exactly when they are the same
    document: same nesting, values and spans; exactly when [==] says so, if values have an equality. *)
Theorem C47_faithful : forall T F1 (ops1 : list (op T)) t1 l1 F2 ops2 t2 l2,
  finished F1 ops1 t1 l1 -> finished F2 ops2 t2 l2 ->
  (debug_tree F1 t1 = debug_tree F2 t2 <-> map erase l1 = map erase l2) /\
  (forall eqT, (forall a b : T, eqT a b = true <-> a = b) ->
     (debug_tree F1 t1 = debug_tree F2 t2 <-> tree_eq F1 F2 eqT t1 t2 = Ok true)).
Proof.
  intros T F1 ops1 t1 l1 F2 ops2 t2 l2 H1 H2.
  assert (G : debug_tree F1 t1 = debug_tree F2 t2 <-> map erase l1 = map erase l2).
  { rewrite (C47_debug T F1 ops1 t1 l1 H1), (C47_debug T F2 ops2 t2 l2 H2), <- depths_erase.
    split; [intros E; injection E; auto|congruence]. }
  split; auto. intros eqT He. rewrite G. symmetry. apply (C28_documents T eqT F1 ops1 t1 l1 F2 ops2 t2 l2 He H1 H2).
Qed.
Print Assumptions C47_faithful.

(** The same for [print]. *)
Theorem C47_print : forall T X F1 (ops1 : list (op T)) t1 l1 F2 ops2 t2 l2,
  finished F1 ops1 t1 l1 -> finished F2 ops2 t2 l2 ->
  (@print T X F1 t1 = @print T X F2 t2 <-> map erase l1 = map erase l2).
Proof.
  intros T X F1 ops1 t1 l1 F2 ops2 t2 l2 H1 H2.
  rewrite (C39_plain T X F1 ops1 t1 l1 H1), (C39_plain T X F2 ops2 t2 l2 H2), <- depths_erase.
  assert (K : forall m1 m2 : list (Z * rose T),
     map (fun i => (fst i, (r_data (snd i), r_span (snd i)))) m1 = map (fun i => (fst i, (r_data (snd i), r_span (snd i)))) m2 <->
     map (fun i => (fst i * 2, (r_data (snd i), r_span (snd i))))%Z m1 = map (fun i => (fst i * 2, (r_data (snd i), r_span (snd i))))%Z m2).
  { clear. induction m1 as [|[k x] m1 IH]; intros [|[j y] m2]; simpl; split; intros E; try discriminate; auto.
    - injection E as -> -> -> E. f_equal. apply IH; auto.
    - injection E; intros E1 E2 E3 E4. f_equal; [f_equal; [lia|congruence]|]. apply IH. auto. }
  split; intros E.
  - injection E as E. apply K. revert E. generalize (flat_map (preorder_depth 0) l1) (flat_map (preorder_depth 0) l2). clear.
    intros m1; induction m1 as [|[k x] m1 IH]; intros [|[j y] m2] E; try discriminate; auto.
    simpl in E. injection E; intros. simpl. f_equal; auto. congruence.
  - f_equal. apply depths_erase in E.
    assert (G : forall n k (l1 l2 : list (rose T)), length (preorder_list l1) <= n -> map erase l1 = map erase l2 ->
       map (@printed T X (fun _ => None)) (flat_map (preorder_depth k) l1) = map (printed (fun _ => None)) (flat_map (preorder_depth k) l2)).
    { clear. induction n as [|n IH]; intros k [|[i kd d sp kids] l1] [|[i2 kd2 d2 sp2 kids2] l2] Hn E; try discriminate; auto.
      - simpl in Hn. lia.
      - simpl in E. injection E as -> -> E1 E2. unfold preorder_list in Hn. simpl in Hn. rewrite app_length in Hn. simpl.
        rewrite !map_app. rewrite (IH (k + 1)%Z kids kids2), (IH k l1 l2) by (auto; unfold preorder_list; lia).
        f_equal. unfold printed, has_kids. simpl. destruct kids, kids2; try discriminate; auto. }
    eapply G; eauto.
Qed.
Print Assumptions C47_print.

(** The demo document and the same document built in another way in another flavor; and one that
    differs in nesting only. *)
Example C47_inhabited :
  finished flavor_default demo_ops demo_tree demo_doc /\ finished eq_demo_flavor eq_demo_ops eq_demo_tree eq_demo_doc /\
  debug_tree flavor_default demo_tree = debug_tree eq_demo_flavor eq_demo_tree /\
  debug_tree flavor_default (b_tree (w_builder (run_world flavor_default [OOpen 1; OClose; OOpen 2; OClose]))) <>
  debug_tree flavor_default (b_tree (w_builder (run_world flavor_default [OOpen 1; OOpen 2; OClose; OClose])))%nat.
Proof.
  split; [exact demo_finished|]. split; [exact (proj1 C28_inhabited)|].
  split; [vm_compute; reflexivity|vm_compute; discriminate].
Qed.
