(** Walks of trees whose table represents a document, in terms of the specification. *)
From Coq Require Import Lia Permutation.
From Verif Require Import Base Pointer Index Tree Builder Hist Node Iter Spec Rep Marks Refine
  TreeRep Enum Walk WalkTree Bounds.

Lemma filter_true {A} (l : list A) : filter (fun _ => true) l = l.
Proof. induction l; simpl; congruence. Qed.

Lemma Forall2_map_eq {A B C} (f : A -> C) (g : B -> C) l1 l2 :
  Forall2 (fun a b => f a = g b) l1 l2 -> map f l1 = map g l2.
Proof. induction 1; simpl; congruence. Qed.

Lemma enum_rel_map {S A B C} (nxt : S -> result (S * option A)) (Rl : A -> B -> Prop)
  (f : A -> C) (g : B -> C) s xs :
  (forall a b, Rl a b -> f a = g b) -> enum_rel nxt Rl s xs ->
  exists items, enumerates nxt s items /\ map f items = map g xs.
Proof.
  intros H (it & H1 & H2). exists it. split; auto. apply Forall2_map_eq.
  eapply Forall2_impl; [|apply H2]. auto.
Qed.

Lemma size_le {T} (l : list (rose T)) x : In x (preorder_list l) -> size x <= size_l l.
Proof.
  intros Hx. apply in_flat_map in Hx as (r & Hr & Hx).
  assert (Hs : size x <= size r).
  { clear - Hx. revert Hx. induction r as [id k d sp kids IH] using rose_ind'. intros Hx.
    simpl in Hx. destruct Hx as [<-|Hx]; auto. rewrite (size_eq (Nd id k d sp kids)). simpl.
    apply in_flat_map in Hx as (c & Hc & Hx). eapply Forall_forall in IH; eauto. specialize (IH Hx).
    apply in_split in Hc as (a & b & ->). unfold size_l, preorder_list. rewrite flat_map_app, app_length.
    simpl. rewrite app_length. unfold size in *. lia. }
  apply in_split in Hr as (a & b & ->). unfold size_l, preorder_list. rewrite flat_map_app, app_length.
  simpl. rewrite app_length. unfold size in *. lia.
Qed.
(** A table that represents [l], within the limits of the types. *)
Definition good {T} (F : flavor) (t : tree T) (l : list (rose T)) : Prop :=
  tree_rep t l /\ fits F t /\ (N.of_nat (length (t_nodes t)) <= int_max F (fl_width F))%N.

Section Thms.
Context {T : Type}.
Variable F : flavor.
Variable t : tree T.
Variable l : list (rose T).
Hypothesis Hfin : good F t l.

Lemma g_fin_rep : tree_rep t l.
Proof. apply Hfin. Qed.
Lemma g_fin_fits : fits F t.
Proof. apply Hfin. Qed.
Lemma g_fin_width : (N.of_nat (length (t_nodes t)) <= int_max F (fl_width F))%N.
Proof. apply Hfin. Qed.

Lemma g_fin_node_id (x : rose T) n : In x (preorder_list l) -> shows (t_nodes t) n x ->
  node_id F n = r_id x.
Proof.
  intros Hx Hn. apply shows_id in Hn. rewrite <- Hn.
  pose proof (preorder_id_lt _ _ _ g_fin_rep Hx). pose proof g_fin_width. pose proof (fits_usize _ _ g_fin_fits).
  apply node_id_spec; lia.
Qed.

Lemma g_shows_view (n : node T) x : shows (t_nodes t) n x -> view n = rview x.
Proof. intros [_ H]; auto. Qed.

(** The node with a given identifier. *)
Lemma g_fin_get x : In x (preorder_list l) -> exists n, tree_get t (r_id x) = Some n /\ shows (t_nodes t) n x.
Proof.
  intros Hx. destruct (in_sibling_lists _ _ Hx) as (p & s1 & s2 & Hs).
  pose proof (node_links _ _ _ _ _ _ g_fin_rep Hs) as E.
  eexists. split; [|apply shows_links; apply E]. unfold tree_get, node_at. rewrite E. auto.
Qed.
Lemma g_get_shows x n : In x (preorder_list l) -> tree_get t (r_id x) = Some n -> shows (t_nodes t) n x.
Proof. intros Hx E. destruct (g_fin_get x Hx) as (m & E2 & H). congruence. Qed.

(** *** From the root *)
Lemma g_walk_events_thm : exists items,
  enumerates (total (walk_events_next F (t_nodes t))) (tree_walk t) items /\
  map (fun i => (fst i, view (snd i))) items = map (fun i => (fst i, rview (snd i))) (events_list l).
Proof.
  destruct (tree_run F t l g_fin_rep g_fin_fits) as [d H].
  apply wrun_events in H.
  eapply enum_rel_map with (f := fun i => (fst i, view (snd i)))
    (g := fun i : Z * event * rose T => (snd (fst i), rview (snd i))) in H.
  - destruct H as (it & H1 & H2). exists it. split; auto. rewrite H2.
    rewrite <- (trace_list_events 0 l), map_map. auto.
  - intros [e n] [[dp e'] x] [H1 H2]. simpl in *. subst. f_equal. apply g_shows_view; auto.
Qed.

Lemma g_walk_thm : enumerates_nodes (walk_next F (t_nodes t)) (tree_walk t) (preorder_list l).
Proof.
  destruct (tree_run F t l g_fin_rep g_fin_fits) as [d H].
  eapply wrun_walk with (fuel := loop_fuel (t_nodes t)) in H.
  - rewrite trace_list_nodes in H. eapply enum_rel_map in H; [exact H|]. apply g_shows_view.
  - pose proof (ups_trace_list 0 l). pose proof (size_l_le_fuel t l g_fin_rep). lia.
Qed.

Lemma g_walk_depths_thm : exists items,
  enumerates (walk_depths_next F (t_nodes t)) (tree_walk t) items /\
  map (fun i => (fst i, view (snd i))) items =
  map (fun i => (fst i, rview (snd i))) (flat_map (preorder_depth 0) l).
Proof.
  destruct (tree_run F t l g_fin_rep g_fin_fits) as [d H].
  eapply wrun_depths with (fuel := loop_fuel (t_nodes t)) in H.
  - eapply enum_rel_map with (f := fun i => (fst i, view (snd i)))
      (g := fun i : Z * event * rose T => (fst (fst i), rview (snd i))) in H.
    + destruct H as (it & H1 & H2). exists it. split; auto. rewrite H2.
      fold (preorder_depth_list 0 l).
      rewrite <- (trace_list_preorder 0 l), map_map. auto.
    + intros [e n] [[dp e'] x] [H1 H2]. simpl in *. subst. f_equal. apply g_shows_view; auto.
  - pose proof (ups_trace_list 0 l). pose proof (size_l_le_fuel t l g_fin_rep). lia.
Qed.

(** *** From a node *)
Variable n : node T.
Variable x : rose T.
Hypothesis Hget : tree_get t (r_id x) = Some n.

Lemma in_mid {A} (a : list A) b c : In b (a ++ b :: c).
Proof. apply in_app_iff. simpl; auto. Qed.

Lemma g_node_walk_id : In x (preorder_list l) -> forall e, walk_new (Some (node_id F n)) e = WalkIt (Some (r_id x, e)) 0.
Proof.
  intros Hx e. unfold walk_new. simpl. rewrite (g_fin_node_id x n Hx); auto. apply g_get_shows; auto.
Qed.

Lemma g_node_walk_events_thm pre e post :
  events_list l = pre ++ (e, x) :: post -> e <> Up ->
  exists items,
  enumerates (total (walk_events_next F (t_nodes t))) (node_walk F n) items /\
  map (fun i => (fst i, view (snd i))) items =
  map (fun i => (fst i, rview (snd i))) ((Next, x) :: post).
Proof.
  intros E He. rewrite <- (trace_list_events 0 l) in E.
  assert (E' : map (fun i : Z * event * rose T => (snd (fst i), snd i)) (filter (fun _ => true) (trace_list 0 l)) = pre ++ (e, x) :: post).
  { rewrite filter_true. exact E. }
  apply map_filter_split in E' as (tr1 & [[k e'] x'] & tr2 & Et & _ & Ei & _ & E2).
  simpl in Ei. injection Ei as -> ->.
  assert (Hx : In x (preorder_list l)).
  { rewrite <- (trace_list_nodes 0 l), Et, filter_app, map_app. apply in_app_iff. right.
    assert (Hen : @entering T (k, e, x) = true) by (destruct e; auto; congruence).
    cbn [filter]. rewrite Hen. simpl. auto. }
  unfold node_walk. rewrite (g_node_walk_id Hx).
  pose proof (mid_run_next F t l g_fin_rep g_fin_fits _ _ _ _ _ He Et) as Hr. apply wrun_events in Hr.
  eapply enum_rel_map with (f := fun i => (fst i, view (snd i)))
    (g := fun i : Z * event * rose T => (snd (fst i), rview (snd i))) in Hr.
  - destruct Hr as (it & H1 & H2). exists it. split; auto. rewrite H2. simpl. f_equal.
    rewrite <- E2, !map_map.
    rewrite filter_true. apply map_ext. auto.
  - intros [e0 n0] [[dp e'] y] [H1 H2]. simpl in *. subst. f_equal. apply g_shows_view; auto.
Qed.

Lemma g_node_walk_depths_thm pre k post :
  flat_map (preorder_depth 0) l = pre ++ (k, x) :: post ->
  exists items,
  enumerates (walk_depths_next F (t_nodes t)) (node_walk F n) items /\
  map (fun i => (fst i, view (snd i))) items =
  map (fun i => (fst i - k, rview (snd i))%Z) ((k, x) :: post).
Proof.
  intros E. pose proof E as E0. fold (preorder_depth_list 0 l) in E.
  rewrite <- (trace_list_preorder 0 l) in E.
  apply map_filter_split in E as (tr1 & [[k' e'] x'] & tr2 & Et & Hen & Ei & _ & E2).
  simpl in Ei. injection Ei as -> ->.
  assert (He : e' <> Up) by (intros ->; discriminate).
  assert (Hx : In x (preorder_list l)).
  { rewrite <- (preorder_depth_list_snd 0 l). unfold preorder_depth_list. rewrite E0, map_app.
    apply in_app_iff. simpl. auto. }
  unfold node_walk. rewrite (g_node_walk_id Hx).
  pose proof (mid_run_next F t l g_fin_rep g_fin_fits _ _ _ _ _ He Et) as Hr.
  eapply wrun_depths with (fuel := loop_fuel (t_nodes t)) in Hr.
  - eapply enum_rel_map with (f := fun i => (fst i, view (snd i)))
    (g := fun i : Z * event * rose T => (fst (fst i), rview (snd i))) in Hr.
    + destruct Hr as (it & H1 & H2). exists it. split; auto. rewrite H2.
      cbn [filter entering fst snd map]. f_equal; [f_equal; lia|].
      rewrite filter_shift, <- E2, !map_map. apply map_ext. intros [[d0 e0] y]. reflexivity.
    + intros [e0 n0] [[dp e1] y] [H1 H2]. simpl in *. subst. f_equal. apply g_shows_view; auto.
  - pose proof (ups_trace_list 0 l) as Hu. rewrite Et, ups_app in Hu.
    pose proof (size_l_le_fuel t l g_fin_rep).
    change (?a :: ?b) with ([a] ++ b) in *. rewrite ups_app, ups_shift in *.
    assert (ups [(0%Z, Next, x)] = 0) as -> by auto. lia.
Qed.

Lemma g_node_walk_thm pre post :
  preorder_list l = pre ++ x :: post ->
  enumerates_nodes (walk_next F (t_nodes t)) (node_walk F n) (x :: post).
Proof.
  intros E. assert (Hx : In x (preorder_list l)) by (rewrite E; apply in_mid).
  rewrite <- (trace_list_nodes 0 l) in E.
  apply map_filter_split in E as (tr1 & [[k' e'] x'] & tr2 & Et & Hen & Ei & _ & E2).
  simpl in Ei. subst x'.
  assert (He : e' <> Up) by (intros ->; discriminate).
  unfold node_walk. rewrite (g_node_walk_id Hx).
  pose proof (mid_run_next F t l g_fin_rep g_fin_fits _ _ _ _ _ He Et) as Hr.
  eapply wrun_walk with (fuel := loop_fuel (t_nodes t)) in Hr.
  - cbn [filter entering fst snd map] in Hr. rewrite filter_shift, snd_shift, E2 in Hr.
    eapply enum_rel_map in Hr; [exact Hr|]. apply g_shows_view.
  - pose proof (ups_trace_list 0 l) as Hu. rewrite Et, ups_app in Hu.
    pose proof (size_l_le_fuel t l g_fin_rep).
    change (?a :: ?b) with ([a] ++ b) in *. rewrite ups_app, ups_shift in *.
    assert (ups [(0%Z, Next, x)] = 0) as -> by auto. lia.
Qed.

Lemma g_node_walk_from_thm pre post :
  preorder_list l = pre ++ preorder x ++ post ->
  enumerates_nodes (walk_next F (t_nodes t)) (node_walk_from F n) post.
Proof.
  intros E. assert (Hx : In x (preorder_list l)).
  { rewrite E. apply in_app_iff. right. apply in_app_iff. left. apply preorder_self. }
  destruct (leave_run F t l g_fin_rep g_fin_fits _ _ _ E) as (k & tr2 & Hr & Hp & Hu).
  unfold node_walk_from. rewrite (g_node_walk_id Hx).
  eapply wrun_walk with (fuel := loop_fuel (t_nodes t)) in Hr.
  - change (map snd (filter entering ((0%Z, Up, x) :: tr2))) with (map snd (filter entering tr2)) in Hr.
    rewrite Hp in Hr. eapply enum_rel_map in Hr; [exact Hr|]. apply g_shows_view.
  - change (?a :: ?b) with ([a] ++ b) in *. rewrite ups_app.
    assert (ups [(0%Z, Up, x)] = 1) as -> by auto. lia.
Qed.

Lemma g_sub_rep : In x (preorder_list l) -> exists par prev nxt, rep (t_nodes t) (flat par prev nxt x).
Proof.
  intros Hx. destruct (in_sibling_lists _ _ Hx) as (p & s1 & s2 & Hsl).
  pose proof (rep_siblings _ _ _ _ g_fin_rep Hsl) as G. rewrite flat_list_app in G.
  apply rep_app in G as [_ G]. cbn [flat_list] in G. apply rep_app in G as [G _]. eauto.
Qed.

End Thms.

Section Inside.
Context {T : Type}.
Variable F : flavor.
Variable t : tree T.
Variable l : list (rose T).
Hypothesis Hfin : good F t l.
Implicit Types x : rose T.

Lemma g_inside_from x : In x (preorder_list l) ->
  enumerates_nodes (inside_next F (t_nodes t)) (WalkIt (Some (r_id x, Next)) 0) (preorder x).
Proof.
  intros Hx. pose proof (g_fin_rep _ _ _ Hfin) as Hrep. pose proof (g_fin_fits _ _ _ Hfin) as Hfits.
  destruct (g_sub_rep F t l Hfin x Hx) as (par & prev & nxt & Hr).
  pose proof (size_le l x Hx) as Hsz. pose proof (fits_size F t l Hrep Hfits) as Hfs.
  pose proof (size_l_le_fuel t l Hrep) as Hfu.
  assert (He : Next <> Up) by congruence.
  pose proof (wrun_tree F (t_nodes t) x par prev nxt 0%Z Next He Hr
    ltac:(unfold in_range; lia)) as Hw.
  pose proof (ups_trace 0 Next x He) as Hu.
  assert (Hp : map snd (filter entering (trace 0 Next x)) = preorder x).
  { rewrite <- (preorder_depth_snd 0 x), <- (trace_preorder 0 Next x He), map_map. auto. }
  assert (Hmain : exists tr w2, wrun F (t_nodes t) (WalkIt (Some (r_id x, Next)) 0) tr w2 /\ tr <> [] /\
     ups tr < loop_fuel (t_nodes t) /\ (wk_depth w2 <= 0)%Z /\
     Forall (fun i => 0 < fst (fst i))%Z (tl tr) /\ map snd (filter entering tr) = preorder x).
  { rewrite trace_eq in Hw, Hp, Hu. destruct (r_kids x) as [|c ks] eqn:Ek.
    - exists [(0%Z, Next, x)], (after par nxt 0). repeat split; auto; try congruence; [lia| |constructor].
      unfold after. destruct nxt; simpl; lia.
    - change ((0%Z, Next, x) :: trace_kids (0 + 1) (c :: ks) ++ [(0%Z, Up, x)])
        with (((0%Z, Next, x) :: trace_kids (0 + 1) (c :: ks)) ++ [(0%Z, Up, x)]) in *.
      apply wrun_app_inv in Hw as (w2 & H1 & H2).
      pose proof (wrun_cons_state _ _ _ _ _ _ _ _ H2). subst w2.
      exists ((0%Z, Next, x) :: trace_kids (0 + 1) (c :: ks)), (WalkIt (Some (r_id x, Up)) 0).
      rewrite ups_app in Hu. rewrite filter_app, map_app in Hp.
      assert (Hz : map snd (filter entering [(0%Z, Up, x)]) = []) by auto.
      rewrite Hz, app_nil_r in Hp.
      repeat split; auto; try congruence; [lia|simpl; lia|].
      cbn [tl trace_kids]. apply Forall_forall. intros i Hi.
      apply in_app_iff in Hi as [Hi|Hi]; [apply trace_range in Hi|apply trace_list_range in Hi]; lia. }
  destruct Hmain as (tr & w2 & H1 & H2 & H3 & H4 & H5 & H6).
  pose proof (inside_run F t _ _ _ _ H1 H2 H3 H4 H5) as H. rewrite H6 in H.
  eapply enum_rel_map in H; [exact H|]. intros a b [_ G]; auto.
Qed.

Lemma g_inside_leave x : In x (preorder_list l) ->
  enumerates_nodes (inside_next F (t_nodes t)) (WalkIt (Some (r_id x, Up)) 0) [].
Proof.
  intros Hx. pose proof (g_fin_rep _ _ _ Hfin) as Hrep. pose proof (g_fin_fits _ _ _ Hfin) as Hfits.
  destruct (g_sub_rep F t l Hfin x Hx) as (par & prev & nxt & Hr).
  pose proof (fits_size F t l Hrep Hfits) as Hfs.
  rewrite flat_head in Hr. apply rep_cons in Hr as [El _].
  pose proof (step_leave F (t_nodes t) par prev nxt x 0 ltac:(lia) El) as Hs.
  exists []. split; auto. apply calls_enum_ext with (s1 := walk_default).
  - unfold inside_next, loop_fuel. set (f := length (t_nodes t)).
    cbn [inside_loop]. rewrite Hs.
    assert (Hd : (wk_depth (after par nxt 0) <=? 0)%Z = true).
    { unfold after. destruct nxt; simpl; apply Z.leb_le; lia. }
    rewrite Hd. auto.
  - apply inside_default. unfold loop_fuel. lia.
Qed.
End Inside.
