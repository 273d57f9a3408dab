(** Property theorems: structure of built trees, navigation, iterators.
    Statements use only the model of the code and Spec.v. *)
From Coq Require Import Lia Permutation.
From Verif Require Import Base Pointer Index Tree Builder Hist Node Iter Spec Demo.
From Verif Require Rep Marks Refine TreeRep Enum Walk WalkTree Bounds WalkGen WalkThms Nav Skip DocInv.

(** ** C01: the calls build the document they describe *)

(** Every call of the history returns what the specification says. *)
Theorem C01_results : forall T F (ops : list (op T)) a rs,
  vec_flavor F -> describes F ops a rs -> snd (run F world_new ops) = rs.
Proof.
  intros T F ops a rs HF H. destruct (Refine.refines F HF ops a rs H) as (w & E & _).
  rewrite E. reflexivity.
Qed.
Print Assumptions C01_results.

(** [build] succeeds exactly on finished documents. *)
Theorem C01_builds : forall T F (ops : list (op T)) a rs,
  vec_flavor F -> describes F ops a rs ->
  ((exists t, builds F ops t) <-> a_open a = []).
Proof.
  intros T F ops a rs HF H. destruct (Refine.refines F HF ops a rs H) as (w & E & HR).
  unfold builds, run_world. rewrite E. simpl. unfold build.
  rewrite (Refine.br_parent _ _ (Refine.r_builder _ _ HR)).
  destruct (a_open a); simpl.
  - split; eauto.
  - split; [intros [t G]; discriminate|discriminate].
Qed.
Print Assumptions C01_builds.

(** The traversal of the built tree is the traversal of the document: same
    nodes (identifier, value, span, leaf or not), same nesting. *)
Theorem C01_structure : forall T F (ops : list (op T)) t l,
  finished F ops t l ->
  exists items,
    enumerates (total (walk_events_next F (t_nodes t))) (tree_walk t) items /\
    map (fun i => (fst i, view (snd i))) items = map (fun i => (fst i, rview (snd i))) (events_list l).
Proof. exact (fun T F ops t l H => WalkThms.walk_events_thm F ops t l H). Qed.
Print Assumptions C01_structure.

(** One node per call that returned a node, carrying the value passed: node
    number [i] holds the value of the [i]-th such call; there are no others. *)
Theorem C01_values : forall T F (ops : list (op T)) l,
  document F ops l ->
  exists a rs, describes F ops a rs /\
    Permutation (map (fun x => (r_id x, r_data x)) (preorder_list l))
                (combine (seq 0 (length (inserted ops rs))) (inserted ops rs)).
Proof. exact (fun T F ops l H => DocInv.document_vals F ops l H). Qed.
Print Assumptions C01_values.

(** ** C07, C08: links *)

(** [x] has siblings [s1] before and [s2] after it, under parent [p]: parent(),
    prev(), next(), first() say exactly that. *)
Theorem C08_links : forall T F (ops : list (op T)) t l p s1 x s2 n,
  finished F ops t l ->
  In (p, s1 ++ x :: s2) (sibling_lists l) -> tree_get t (r_id x) = Some n ->
  view n = rview x /\
  answers (node_parent (t_nodes t) n) p /\
  answers (node_prev (t_nodes t) n) (last_error s1) /\
  answers (node_next (t_nodes t) n) (hd_error s2) /\
  answers (node_first (t_nodes t) n) (hd_error (r_kids x)).
Proof.
  exact (fun T F ops t l p s1 x s2 n H => Nav.nav_links t l (WalkThms.fin_rep F ops t l H) p s1 x s2 n).
Qed.
Print Assumptions C08_links.

Theorem C08_tree_first : forall T F (ops : list (op T)) t l,
  finished F ops t l -> answers (tree_first t) (hd_error l).
Proof. exact (fun T F ops t l H => Nav.nav_first t l (WalkThms.fin_rep F ops t l H)). Qed.
Print Assumptions C08_tree_first.

(** .. and every node of the document is found by its identifier, every node of the tree is a
    node of the document. *)
Theorem C08_all_nodes : forall T F (ops : list (op T)) t l,
  finished F ops t l ->
  (forall x, In x (preorder_list l) -> exists n, tree_get t (r_id x) = Some n /\ view n = rview x) /\
  (forall i n, tree_get t i = Some n -> exists x, In x (preorder_list l) /\ r_id x = i /\ view n = rview x) /\
  (forall x, In x (preorder_list l) -> exists p s1 s2, In (p, s1 ++ x :: s2) (sibling_lists l)) /\
  NoDup (map r_id (preorder_list l)).
Proof.
  intros T F ops t l H. pose proof (WalkThms.fin_rep F ops t l H) as Hr. split; [|split; [|split]].
  - intros x Hx. destruct (WalkThms.fin_get F ops t l H x Hx) as (n & E & Hn). exists n. split; auto. apply Hn.
  - intros i n E. assert (Hi : i < length (t_nodes t)).
    { unfold tree_get, node_at in E. apply nth_error_Some. intros Hx. rewrite Hx in E. discriminate. }
    destruct (TreeRep.preorder_of_id _ _ _ Hr Hi) as (x & Hx & <-). exists x. repeat split; auto.
    apply (WalkThms.get_shows F ops t l H x n Hx E).
  - intros x Hx. apply TreeRep.in_sibling_lists; auto.
  - rewrite <- Rep.ids_l_preorder. eapply TreeRep.tr_nodup; eauto.
Qed.
Print Assumptions C08_all_nodes.

(** children() yields exactly the children in order, and then None forever. *)
Theorem C07_children : forall T F (ops : list (op T)) t l x n,
  finished F ops t l -> In x (preorder_list l) -> tree_get t (r_id x) = Some n ->
  enumerates_nodes (total (children_next (t_nodes t))) (node_children n) (r_kids x).
Proof.
  intros T F ops t l x n H Hx E. pose proof (WalkThms.fin_rep F ops t l H) as Hr.
  eapply WalkGen.enum_rel_map;
    [|eapply (Nav.children_thm t l Hr); [apply TreeRep.kids_sibling_list; eauto|
      apply (Nav.node_children_is t l Hr); auto]].
  intros a b [_ G]; auto.
Qed.
Print Assumptions C07_children.

Theorem C07_roots : forall T F (ops : list (op T)) t l,
  finished F ops t l ->
  enumerates_nodes (total (children_next (t_nodes t))) (tree_children t) l.
Proof.
  intros T F ops t l H. pose proof (WalkThms.fin_rep F ops t l H) as Hr.
  eapply WalkGen.enum_rel_map;
    [|eapply (Nav.children_thm t l Hr); [left; reflexivity|apply (Nav.tree_children_is t l Hr)]].
  intros a b [_ G]; auto.
Qed.
Print Assumptions C07_roots.

Example C07_inhabited :
  exists x n, In x (preorder_list demo_doc) /\ tree_get demo_tree (r_id x) = Some n /\ length (r_kids x) = 3.
Proof. eexists. eexists. split; [left; reflexivity|]. split; vm_compute; reflexivity. Qed.

Example C08_inhabited :
  finished flavor_default demo_ops demo_tree demo_doc /\
  exists p s1 x s2 n, In (p, s1 ++ x :: s2) (sibling_lists demo_doc) /\ tree_get demo_tree (r_id x) = Some n.
Proof.
  split; [exact demo_finished|]. do 4 eexists. eexists. split; [exact demo_siblings|]. vm_compute. reflexivity.
Qed.

(** ** C19-C23: walking *)
Theorem C19_walk : forall T F (ops : list (op T)) t l,
  finished F ops t l ->
  enumerates_nodes (walk_next F (t_nodes t)) (tree_walk t) (preorder_list l).
Proof. exact (fun T F ops t l H => WalkThms.walk_thm F ops t l H). Qed.
Print Assumptions C19_walk.

Theorem C20_walk_events : forall T F (ops : list (op T)) t l,
  finished F ops t l ->
  exists items,
    enumerates (total (walk_events_next F (t_nodes t))) (tree_walk t) items /\
    map (fun i => (fst i, view (snd i))) items = map (fun i => (fst i, rview (snd i))) (events_list l).
Proof. exact (fun T F ops t l H => WalkThms.walk_events_thm F ops t l H). Qed.
Print Assumptions C20_walk_events.

(** Starting at a node: the rest of the trace from the event that entered it. *)
Theorem C20_node_walk_events : forall T F (ops : list (op T)) t l x n pre e post,
  finished F ops t l -> tree_get t (r_id x) = Some n ->
  events_list l = pre ++ (e, x) :: post -> e <> Up ->
  exists items,
    enumerates (total (walk_events_next F (t_nodes t))) (node_walk F n) items /\
    map (fun i => (fst i, view (snd i))) items = map (fun i => (fst i, rview (snd i))) ((Next, x) :: post).
Proof.
  exact (fun T F ops t l x n pre e post H E => WalkThms.node_walk_events_thm F ops t l H n x E pre e post).
Qed.
Print Assumptions C20_node_walk_events.

Theorem C21_depths : forall T F (ops : list (op T)) t l,
  finished F ops t l ->
  exists items,
    enumerates (walk_depths_next F (t_nodes t)) (tree_walk t) items /\
    map (fun i => (fst i, view (snd i))) items =
    map (fun i => (fst i, rview (snd i))) (flat_map (preorder_depth 0) l).
Proof. exact (fun T F ops t l H => WalkThms.walk_depths_thm F ops t l H). Qed.
Print Assumptions C21_depths.

(** What [preorder_depth] says: the depth is the number of strict ancestors. *)
Theorem C21_depth_is_ancestors : forall T (l : list (rose T)) k x,
  In (k, x) (flat_map (preorder_depth 0) l) ->
  exists chain, ancestry l x chain /\ (k = Z.of_nat (length chain) - 1)%Z.
Proof. exact (fun T l k x => Nav.preorder_depth_ancestry l k x). Qed.
Print Assumptions C21_depth_is_ancestors.

(** From a node, depths are relative to it. *)
Theorem C21_node_depths : forall T F (ops : list (op T)) t l x n pre k post,
  finished F ops t l -> tree_get t (r_id x) = Some n ->
  flat_map (preorder_depth 0) l = pre ++ (k, x) :: post ->
  exists items,
    enumerates (walk_depths_next F (t_nodes t)) (node_walk F n) items /\
    map (fun i => (fst i, view (snd i))) items =
    map (fun i => (fst i - k, rview (snd i))%Z) ((k, x) :: post).
Proof.
  exact (fun T F ops t l x n pre k post H E => WalkThms.node_walk_depths_thm F ops t l H n x E pre k post).
Qed.
Print Assumptions C21_node_depths.

Theorem C22_inside : forall T F (ops : list (op T)) t l x n,
  finished F ops t l -> In x (preorder_list l) -> tree_get t (r_id x) = Some n ->
  enumerates_nodes (inside_next F (t_nodes t)) (node_walk F n) (preorder x).
Proof.
  intros T F ops t l x n H Hx E. unfold node_walk. rewrite (WalkThms.node_walk_id F ops t l H n x E Hx).
  exact (WalkThms.inside_from F ops t l H x Hx).
Qed.
Print Assumptions C22_inside.

Theorem C22_inside_from : forall T F (ops : list (op T)) t l x n,
  finished F ops t l -> In x (preorder_list l) -> tree_get t (r_id x) = Some n ->
  enumerates_nodes (inside_next F (t_nodes t)) (node_walk_from F n) [].
Proof.
  intros T F ops t l x n H Hx E. unfold node_walk_from. rewrite (WalkThms.node_walk_id F ops t l H n x E Hx).
  exact (WalkThms.inside_leave F ops t l H x Hx).
Qed.
Print Assumptions C22_inside_from.

(** tree.walk().inside() is the first root with its descendants. *)
Theorem C22_tree_inside : forall T F (ops : list (op T)) t x l,
  finished F ops t (x :: l) ->
  enumerates_nodes (inside_next F (t_nodes t)) (tree_walk t) (preorder x).
Proof.
  intros T F ops t x l H. unfold tree_walk.
  rewrite (TreeRep.tr_first _ _ (WalkThms.fin_rep F ops t _ H)).
  apply (WalkThms.inside_from F ops t _ H x). apply TreeRep.preorder_list_top. left; auto.
Qed.
Print Assumptions C22_tree_inside.

Theorem C23_node_walk : forall T F (ops : list (op T)) t l x n pre post,
  finished F ops t l -> tree_get t (r_id x) = Some n ->
  preorder_list l = pre ++ x :: post ->
  enumerates_nodes (walk_next F (t_nodes t)) (node_walk F n) (x :: post).
Proof.
  exact (fun T F ops t l x n pre post H E => WalkThms.node_walk_thm F ops t l H n x E pre post).
Qed.
Print Assumptions C23_node_walk.

Theorem C23_node_walk_from : forall T F (ops : list (op T)) t l x n pre post,
  finished F ops t l -> tree_get t (r_id x) = Some n ->
  preorder_list l = pre ++ preorder x ++ post ->
  enumerates_nodes (walk_next F (t_nodes t)) (node_walk_from F n) post.
Proof.
  exact (fun T F ops t l x n pre post H E => WalkThms.node_walk_from_thm F ops t l H n x E pre post).
Qed.
Print Assumptions C23_node_walk_from.

(** The hypotheses on the position can always be met: the subtree of a node is
    contiguous in document order. *)
Theorem C23_positions : forall T (l : list (rose T)) x,
  In x (preorder_list l) -> exists pre post, preorder_list l = pre ++ preorder x ++ post.
Proof.
  intros T l x Hx.
  destruct (WalkTree.trace_list_sub x l 0%Z Hx) as (tr1 & k & e & tr2 & E & He).
  exists (map snd (filter Walk.entering tr1)), (map snd (filter Walk.entering tr2)).
  rewrite <- (Walk.trace_list_nodes 0 l), E, !filter_app, !map_app. do 2 f_equal.
  rewrite <- (Walk.preorder_depth_snd k x), <- (Walk.trace_preorder k e x He), map_map. auto.
Qed.
Print Assumptions C23_positions.

Example C23_inhabited :
  preorder_list demo_doc =
    [Nd 0 KOpen 10 (Span 0 5)
      [ Nd 1 KLeaf 1 (Span 0 3) [];
        Nd 4 KWrap 11 (Span 3 5) [ Nd 2 KLeaf 2 (Span 3 5) []; Nd 3 KOpen 12 (Span 5 5) [] ];
        Nd 5 KLeaf 3 (Span 5 5) [] ]; Nd 1 KLeaf 1 (Span 0 3) []] ++
    preorder (Nd 4 KWrap 11 (Span 3 5) [ Nd 2 KLeaf 2 (Span 3 5) []; Nd 3 KOpen 12 (Span 5 5) [] ]) ++
    [Nd 5 KLeaf 3 (Span 5 5) []; Nd 6 KLeaf 4 (Span 5 9) []].
Proof. reflexivity. Qed.

(** ** C25: siblings and ancestors *)
Theorem C25_siblings : forall T F (ops : list (op T)) t l p s1 x s2 n,
  finished F ops t l ->
  In (p, s1 ++ x :: s2) (sibling_lists l) -> tree_get t (r_id x) = Some n ->
  enumerates_nodes (total (siblings_next (t_nodes t))) (node_siblings n) (x :: s2).
Proof.
  intros T F ops t l p s1 x s2 n H Hs E. pose proof (WalkThms.fin_rep F ops t l H) as Hr.
  eapply WalkGen.enum_rel_map; [|eapply (Nav.siblings_thm t l Hr); eauto]. intros a b [_ G]; auto.
Qed.
Print Assumptions C25_siblings.

Theorem C25_ancestors : forall T F (ops : list (op T)) t l x n chain,
  finished F ops t l -> ancestry l x chain -> tree_get t (r_id x) = Some n ->
  enumerates_nodes (total (ancestors_next (t_nodes t))) (node_ancestors n) chain.
Proof.
  intros T F ops t l x n chain H Hs E. pose proof (WalkThms.fin_rep F ops t l H) as Hr.
  eapply WalkGen.enum_rel_map; [|eapply (Nav.ancestors_thm t l Hr); eauto]. intros a b [_ G]; auto.
Qed.
Print Assumptions C25_ancestors.

(** Every node has such a chain, ending in a root: parent() reaches a root. *)
Theorem C25_chains : forall T (l : list (rose T)) x, In x (preorder_list l) ->
  exists chain, ancestry l x chain.
Proof. exact (fun T l x => Nav.ancestry_exists l x). Qed.
Print Assumptions C25_chains.

Example C25_inhabited : ancestry demo_doc (Nd 2 KLeaf 2 (Span 3 5) [])
  [Nd 2 KLeaf 2 (Span 3 5) [];
   Nd 4 KWrap 11 (Span 3 5) [ Nd 2 KLeaf 2 (Span 3 5) []; Nd 3 KOpen 12 (Span 5 5) [] ];
   nth 0 demo_doc (Nd 0 KOpen 10 (Span 0 5) [])].
Proof.
  eapply anc_child; [eapply anc_child; [apply anc_root|]|]; simpl; auto.
Qed.

(** ** C09, C24: last() and both ends of children() *)

(** For a sibling list whose last element was not made by a wrapping close_at
    (or whose parent was): every schedule of next()/next_back() calls is
    answered as by a deque of the children.  Missing for the full C24 (and
    C09): lists whose last element was made by a wrapping close_at, for which it is false (see below). *)
Theorem C24_children_partial : forall T F (ops : list (op T)) t l x n sched,
  finished F ops t l -> In x (preorder_list l) -> tree_get t (r_id x) = Some n ->
  settled (Some x) (r_kids x) ->
  exists items,
    drive (total (children_next (t_nodes t))) (total (children_next_back (t_nodes t))) sched
          (node_children n) = Ok items /\
    map (option_map view) items = map (option_map rview) (deque sched (r_kids x)).
Proof.
  intros T F ops t l x n sched H Hx E Hst. pose proof (WalkThms.fin_rep F ops t l H) as Hr.
  eapply (Nav.children_deque t l Hr). eapply (Nav.is_children_holds l).
  - apply TreeRep.kids_sibling_list; eauto.
  - apply (Nav.node_children_is t l Hr); auto.
  - apply (Nav.settled_fresh t l Hr); auto; first [left; reflexivity|apply TreeRep.kids_sibling_list; auto].
Qed.
Print Assumptions C24_children_partial.

Theorem C24_roots_partial : forall T F (ops : list (op T)) t l sched,
  finished F ops t l -> settled None l ->
  exists items,
    drive (total (children_next (t_nodes t))) (total (children_next_back (t_nodes t))) sched
          (tree_children t) = Ok items /\
    map (option_map view) items = map (option_map rview) (deque sched l).
Proof.
  intros T F ops t l sched H Hst. pose proof (WalkThms.fin_rep F ops t l H) as Hr.
  eapply (Nav.children_deque t l Hr). eapply (Nav.is_children_holds l).
  - left; reflexivity.
  - apply (Nav.tree_children_is t l Hr); auto.
  - apply (Nav.settled_fresh t l Hr); auto; first [left; reflexivity|apply TreeRep.kids_sibling_list; auto].
Qed.
Print Assumptions C24_roots_partial.

(** Exactly when last() is right. *)
Theorem C09_last_partial : forall T F (ops : list (op T)) t l,
  finished F ops t l ->
  (answers (tree_last t) (last_error l) <-> settled None l) /\
  (forall x n, In x (preorder_list l) -> tree_get t (r_id x) = Some n ->
     (answers (node_last (t_nodes t) n) (last_error (r_kids x)) <-> settled (Some x) (r_kids x))).
Proof.
  intros T F ops t l H. pose proof (WalkThms.fin_rep F ops t l H) as Hr.
  assert (G : forall p s, In (p, s) (sibling_lists l) ->
     (answers (node_opt (t_nodes t) (Nav.stored_last p s)) (last_error s) <-> settled p s)).
  { intros p s Hs. rewrite (Nav.settled_fresh t l Hr p s Hs). unfold Nav.fresh. split; intros Ha.
    - rewrite Nav.last_error_id. destruct (last_error s) as [y|] eqn:E.
      + destruct (Nav.stored_last p s) as [i|]; [|discriminate]. unfold answers, node_opt, node_at in Ha.
        destruct (nth_error (t_nodes t) i); [|discriminate]. simpl in Ha. simpl.
        assert (E2 : fst (view (i, l0)) = fst (rview y)) by congruence.
        unfold view, rview in Ha. simpl in *. congruence.
      + destruct s as [|x s _] using rev_ind; [|rewrite Nav.last_error_snoc in E; discriminate].
        destruct p as [[? [] ? ? ?]|]; reflexivity.
    - rewrite Ha. apply (Nav.answers_opt t l Hr); [apply Nav.last_error_id|].
      intros y Hy. eapply TreeRep.sibling_list_in; eauto. apply Nav.last_error_in; auto. }
  split.
  - unfold tree_last. rewrite (TreeRep.tr_last _ _ Hr). apply (G None l). left. reflexivity.
  - intros x n Hx E. destruct (TreeRep.in_sibling_lists _ _ Hx) as (p & s1 & s2 & Hsl).
    rewrite (Nav.at_node t l Hr _ _ _ _ _ Hsl E). apply (G (Some x) (r_kids x)). apply TreeRep.kids_sibling_list; auto.
Qed.
Print Assumptions C09_last_partial.

(** Every list of the demo document is settled. *)
Example C24_inhabited : settled None demo_doc /\
  forall x, In x (preorder_list demo_doc) -> settled (Some x) (r_kids x).
Proof.
  split; [vm_compute; auto|].
  intros x Hx. simpl in Hx. repeat destruct Hx as [<-|Hx]; try destruct Hx; vm_compute; auto.
Qed.

(** The full C09 is false of the code: after checkpoint, token, token, close_at
    the root is the wrapper, but tree.last() is the second token and
    children().rev() starts with it. *)
Theorem C09_last_refuted : exists (ops : list (op nat)) t l,
  finished flavor_default ops t l /\
  ~ answers (tree_last t) (last_error l) /\
  exists items,
    drive (total (children_next (t_nodes t))) (total (children_next_back (t_nodes t)))
      [false; false] (tree_children t) = Ok items /\
    map (option_map view) items <> map (option_map rview) (deque [false; false] l).
Proof.
  set (ops := [OCheckpoint; OToken 1 1; OToken 2 1; OCloseAt 0 3] : list (op nat)).
  set (t := match build (w_builder (run_world flavor_default ops)) with Ok t => t | _ => tree_new end).
  set (l := [Nd 2 KWrap 3 (Span 0 2) [Nd 0 KLeaf 1 (Span 0 1) []; Nd 1 KLeaf 2 (Span 1 2) []]]).
  exists ops, t, l. split; [|split].
  - split; [split; auto|]. split; [|split; vm_compute; reflexivity].
    destruct (a_run flavor_default doc_new ops) as [[a rs]|] eqn:E; [|vm_compute in E; discriminate].
    exists a, rs. split; auto. vm_compute in E. injection E as <- <-. vm_compute. auto.
  - vm_compute. discriminate.
  - eexists. split; [vm_compute; reflexivity|]. vm_compute. discriminate.
Qed.
Print Assumptions C09_last_refuted.

(** The same below an opened node. *)
Theorem C09_node_last_refuted : exists (ops : list (op nat)) t l x n,
  finished flavor_default ops t l /\ In x (preorder_list l) /\ tree_get t (r_id x) = Some n /\
  ~ answers (node_last (t_nodes t) n) (last_error (r_kids x)).
Proof.
  set (ops := [OOpen 0; OCheckpoint; OToken 1 1; OToken 2 1; OCloseAt 0 3; OClose] : list (op nat)).
  set (t := match build (w_builder (run_world flavor_default ops)) with Ok t => t | _ => tree_new end).
  set (x := Nd 0 KOpen 0 (Span 0 2) [Nd 3 KWrap 3 (Span 0 2) [Nd 1 KLeaf 1 (Span 0 1) []; Nd 2 KLeaf 2 (Span 1 2) []]]).
  exists ops, t, [x], x. eexists. split; [|split; [|split]].
  - split; [split; auto|]. split; [|split; vm_compute; reflexivity].
    destruct (a_run flavor_default doc_new ops) as [[a rs]|] eqn:E; [|vm_compute in E; discriminate].
    exists a, rs. split; auto. vm_compute in E. injection E as <- <-. vm_compute. auto.
  - left; auto.
  - vm_compute. reflexivity.
  - vm_compute. discriminate.
Qed.
Print Assumptions C09_node_last_refuted.

(** ** C26: skip_tokens, next_node *)

(** For any iterator that enumerates nodes [xs] (C07, C19, C22, C23, C25 give
    them): skip_tokens enumerates those with children. *)
Theorem C26_skip_tokens : forall S T (nxt : S -> result (S * option (node T))) s xs fuel,
  enumerates_nodes nxt s xs -> length xs < fuel ->
  enumerates_nodes (skip_next fuel nxt) s (filter has_kids xs).
Proof. exact @Skip.skip_enumerates. Qed.
Print Assumptions C26_skip_tokens.

(** next_node: the first with children; the iterator continues after it. *)
Theorem C26_next_node : forall S T (nxt : S -> result (S * option (node T))) s xs fuel,
  enumerates_nodes nxt s xs -> length xs < fuel ->
  exists s' o, skip_next fuel nxt s = Ok (s', o) /\
    match o with
    | None => filter has_kids xs = [] /\ enumerates_nodes nxt s' []
    | Some n => exists pre x post, xs = pre ++ x :: post /\ filter has_kids pre = [] /\
        has_kids x = true /\ view n = rview x /\ enumerates_nodes nxt s' post
    end.
Proof. exact @Skip.next_node_thm. Qed.
Print Assumptions C26_next_node.

(** skip_tokens().find(p): the first node with children that satisfies [p]; the iterator continues
    after it.  [q] is [p] seen on document nodes. *)
Theorem C26_find : forall S T (nxt : S -> result (S * option (node T))) s xs fuel p q,
  (forall n x, view n = rview x -> p n = q x) ->
  enumerates_nodes nxt s xs -> length xs < fuel ->
  exists s' o, skip_find fuel nxt p s = Ok (s', o) /\
    match o with
    | None => filter q (filter has_kids xs) = [] /\ enumerates_nodes nxt s' []
    | Some n => exists pre x post, xs = pre ++ x :: post /\ filter q (filter has_kids pre) = [] /\
        has_kids x = true /\ q x = true /\ view n = rview x /\ enumerates_nodes nxt s' post
    end.
Proof. exact @Skip.skip_find_thm. Qed.
Print Assumptions C26_find.

(** The size hint of [skip_tokens] is right if that of the iterator below is; the default one always is. *)
Definition hint_right (hint : N * option N) (items : nat) : Prop :=
  (fst hint <= N.of_nat items)%N /\ forall u, snd hint = Some u -> (N.of_nat items <= u)%N.
Theorem C26_size_hint : forall S T (nxt : S -> result (S * option (node T))) s xs fuel hint,
  enumerates_nodes nxt s xs -> length xs < fuel -> hint_right hint (length xs) ->
  exists items, enumerates (skip_next fuel nxt) s items /\ hint_right (skip_size_hint hint) (length items) /\
    snd (skip_size_hint hint) = snd hint /\ hint_right size_hint_default (length xs).
Proof.
  intros S T nxt s xs fuel hint E Hl [H1 H2]. destruct (C26_skip_tokens S T nxt s xs fuel E Hl) as (items & Ei & V). exists items. split; auto.
  assert (L : length items <= length xs).
  { rewrite <- (map_length view), V, map_length. clear. induction xs as [|x xs IH]; simpl; auto. destruct (has_kids x); simpl; lia. }
  destruct hint as [lo up]. simpl in *. split; [|split; auto; split; simpl; [lia|discriminate]].
  split; simpl; [lia|]. intros u ->. specialize (H2 u eq_refl). lia.
Qed.
Print Assumptions C26_size_hint.

Example C26_find_inhabited : exists p q,
  (forall n x, view n = @rview nat x -> p n = q x) /\
  match skip_find 20 (walk_next flavor_default (t_nodes demo_tree)) p (tree_walk demo_tree) with
  | Ok (_, Some n) => node_value n = 11 | _ => False end.
Proof.
  exists (fun n => Nat.eqb (node_value n) 11), (fun x => Nat.eqb (r_data x) 11). split.
  - unfold view, rview. intros n x E. assert (node_value n = r_data x) as -> by congruence. reflexivity.
  - vm_compute. reflexivity.
Qed.

Theorem C26_walk_skip_tokens : forall T F (ops : list (op T)) t l fuel,
  finished F ops t l -> length (preorder_list l) < fuel ->
  enumerates_nodes (skip_next fuel (walk_next F (t_nodes t))) (tree_walk t)
    (filter has_kids (preorder_list l)).
Proof.
  intros T F ops t l fuel H Hf. apply Skip.skip_enumerates; auto. exact (WalkThms.walk_thm F ops t l H).
Qed.
Print Assumptions C26_walk_skip_tokens.

(** children().skip_tokens() from both ends; as C24, for settled lists. *)
Theorem C26_children_both_ends_partial : forall T F (ops : list (op T)) t l x n sched fuel,
  finished F ops t l -> In x (preorder_list l) -> tree_get t (r_id x) = Some n ->
  settled (Some x) (r_kids x) -> length (r_kids x) < fuel ->
  exists items,
    drive (skip_next fuel (total (children_next (t_nodes t))))
          (skip_next fuel (total (children_next_back (t_nodes t)))) sched (node_children n) = Ok items /\
    map (option_map view) items = map (option_map rview) (deque sched (filter has_kids (r_kids x))).
Proof.
  intros T F ops t l x n sched fuel H Hx E Hst Hf. pose proof (WalkThms.fin_rep F ops t l H) as Hr.
  eapply (Skip.skip_deque t l Hr); auto. eapply (Nav.is_children_holds l).
  - apply TreeRep.kids_sibling_list; eauto.
  - apply (Nav.node_children_is t l Hr); auto.
  - apply (Nav.settled_fresh t l Hr); auto; first [left; reflexivity|apply TreeRep.kids_sibling_list; auto].
Qed.
Print Assumptions C26_children_both_ends_partial.
