(** Property theorems: spans of trees built with plain calls (C14-C17). *)
From Coq Require Import Lia.
From Verif Require Import Base Pointer Index Tree Builder Hist Node Iter Spec SpecSpan Rep Refine TreeRep
  Enum WalkThms Nav DocInv Layout PropsTree.

(** A finished run of plain calls: as [finished], every call plain. *)
Definition plain_run {T} (F : flavor) (ops : list (op T)) (t : tree T) (l : list (rose T)) : Prop :=
  fl_index F <> IxEmpty /\ finished F ops t l /\ plain F 0 ops (run_outs F ops).
Definition total_of {T} (F : flavor) (ops : list (op T)) : N := total_len ops (run_outs F ops).

Lemma plain_facts T F (ops : list (op T)) t l : plain_run F ops t l ->
  laid_list 0 l (total_of F ops) /\ t_span t = Span 0 (total_of F ops) /\
  (forall id sp, In (id, sp) (token_spans 0 ops (run_outs F ops)) -> exists k d, In (Nd id k d sp []) (preorder_list l)).
Proof.
  intros (HE & (HF & (a & rs & Hd & Ho & <-) & Hb & _) & HP).
  assert (Hrs : run_outs F ops = rs) by (eapply C01_results; eauto). unfold total_of. rewrite Hrs in *.
  destruct (Layout.plain_run F HE ops 0%N doc_new a rs (doc_new_laid) Hd HP) as (A & _ & C). simpl in A.
  destruct (dl_cur _ _ A) as (s & H1 & H2). rewrite Ho in H2. simpl in H2. subst s.
  split; [auto|]. split.
  - destruct (Refine.refines F HF ops a rs Hd) as (w & E & HR). unfold builds, run_world in Hb. rewrite E in Hb. simpl in Hb.
    pose proof (r_builder _ _ HR) as HB. unfold build in Hb. rewrite (br_parent _ _ HB), Ho in Hb. simpl in Hb. injection Hb as <-.
    rewrite (br_span _ _ HB). apply (dl_span _ _ A).
  - intros id sp Hin. destruct (C id sp Hin) as (k & d & Hx). exists k, d. unfold doc_nodes in Hx. rewrite Ho in Hx.
    simpl in Hx. rewrite app_nil_r in Hx. auto.
Qed.

Lemma view_span T (n : node T) x : view n = rview x -> node_span n = r_span x /\ has_children n = has_kids x /\ fst n = r_id x /\ node_value n = r_data x.
Proof. unfold view, rview. intros E. injection E as E1 E2 E3 E4. auto. Qed.

Lemma views_spans T (items : list (node T)) xs : map view items = map rview xs ->
  map node_span items = map (@r_span T) xs /\
  map node_span (filter childless items) = map (@r_span T) (filter no_kids xs).
Proof.
  revert xs; induction items as [|n items IH]; intros [|x xs] E; try discriminate; auto. simpl in E.
  injection E as E1 E2 E3 E4 E5. specialize (IH xs E5). destruct IH as [A B].
  simpl. unfold childless at 1, no_kids at 1. rewrite E4. rewrite A. split; [congruence|].
  destruct (has_kids x); simpl; auto. congruence.
Qed.

(** ** C14: tokens *)

(** Each token has its own length and starts at the sum of the lengths before it. *)
Theorem C14_tokens : forall T F (ops : list (op T)) t l id sp,
  plain_run F ops t l -> In (id, sp) (token_spans 0 ops (run_outs F ops)) ->
  exists n, tree_get t id = Some n /\ node_span n = sp /\ has_children n = false.
Proof.
  intros T F ops t l id sp H Hin. destruct (plain_facts T F ops t l H) as (_ & _ & C).
  destruct (C id sp Hin) as (k & d & Hx). destruct H as (_ & Hf & _).
  destruct (proj1 (C08_all_nodes T F ops t l Hf) _ Hx) as (n & E & V). apply view_span in V. exists n. tauto.
Qed.
Print Assumptions C14_tokens.

(** In walk order the childless nodes meet without gap or overlap, from 0 to the sum of all
    lengths. *)
Theorem C14_tile : forall T F (ops : list (op T)) t l, plain_run F ops t l ->
  exists items, enumerates (walk_next F (t_nodes t)) (tree_walk t) items /\
    tile 0 (map node_span (filter childless items)) (total_of F ops).
Proof.
  intros T F ops t l H. destruct (plain_facts T F ops t l H) as (A & _ & _). destruct H as (_ & Hf & _).
  destruct (C19_walk T F ops t l Hf) as (items & E & V). exists items. split; auto.
  rewrite (proj2 (views_spans _ _ _ V)). apply laid_tiles. auto.
Qed.
Print Assumptions C14_tile.

(** At every moment, cursor() is the sum of the lengths so far. *)
Theorem C14_cursor : forall T F (ops : list (op T)) a rs,
  vec_flavor F -> fl_index F <> IxEmpty -> describes F ops a rs -> plain F 0 ops rs ->
  cursor (w_builder (run_world F ops)) = total_len ops rs.
Proof.
  intros T F ops a rs HF HE Hd HP. destruct (Refine.refines F HF ops a rs Hd) as (w & E & HR).
  unfold run_world. rewrite E. simpl. unfold cursor. rewrite (br_cursor _ _ (r_builder _ _ HR)).
  destruct (Layout.plain_run F HE ops 0%N doc_new a rs (doc_new_laid) Hd HP) as (A & _). apply (dl_cursor _ _ A).
Qed.
Print Assumptions C14_cursor.

(** ** C15: nodes *)

(** The children of a node tile its span; so do the childless nodes of its subtree (its tokens);
    a childless node that is not a token is a point. *)
Theorem C15_children : forall T F (ops : list (op T)) t l id n,
  plain_run F ops t l -> tree_get t id = Some n -> has_children n = true ->
  exists items, enumerates (total (children_next (t_nodes t))) (node_children n) items /\
    tile (s_start (node_span n)) (map node_span items) (s_end (node_span n)).
Proof.
  intros T F ops t l id n H E Hc. destruct (plain_facts T F ops t l H) as (A & _ & _). destruct H as (_ & Hf & _).
  destruct (proj1 (proj2 (C08_all_nodes T F ops t l Hf)) id n E) as (x & Hx & <- & V).
  destruct (C07_children T F ops t l x n Hf Hx E) as (items & En & Vs). exists items. split; auto.
  apply view_span in V. destruct V as (V1 & V2 & _). rewrite (proj1 (views_spans _ _ _ Vs)), V1.
  destruct (proj2 laid_inside _ _ _ A x Hx) as (s & e & Hl & _). rewrite (laid_span _ _ _ Hl). simpl.
  rewrite Hc in V2. inversion Hl; subst; try discriminate V2. apply laid_list_tile. auto.
Qed.
Print Assumptions C15_children.

Theorem C15_contents : forall T F (ops : list (op T)) t l id n,
  plain_run F ops t l -> tree_get t id = Some n ->
  exists items, enumerates (inside_next F (t_nodes t)) (node_walk F n) items /\
    tile (s_start (node_span n)) (map node_span (filter childless items)) (s_end (node_span n)).
Proof.
  intros T F ops t l id n H E. destruct (plain_facts T F ops t l H) as (A & _ & _). destruct H as (_ & Hf & _).
  destruct (proj1 (proj2 (C08_all_nodes T F ops t l Hf)) id n E) as (x & Hx & <- & V).
  destruct (C22_inside T F ops t l x n Hf Hx E) as (items & En & Vs). exists items. split; auto.
  apply view_span in V. destruct V as (V1 & V2 & _). rewrite (proj2 (views_spans _ _ _ Vs)), V1.
  destruct (proj2 laid_inside _ _ _ A x Hx) as (s & e & Hl & _). rewrite (laid_span _ _ _ Hl). simpl.
  apply laid_tiles. auto.
Qed.
Print Assumptions C15_contents.

(** The layout in one piece, for the document (see [laid] in SpecSpan.v). *)
Theorem C15_layout : forall T F (ops : list (op T)) t l,
  plain_run F ops t l -> laid_list 0 l (total_of F ops).
Proof. intros T F ops t l H. apply (plain_facts T F ops t l H). Qed.
Print Assumptions C15_layout.

Theorem C15_within : forall T F (ops : list (op T)) t l id n p,
  plain_run F ops t l -> tree_get t id = Some n -> node_parent (t_nodes t) n = Some p ->
  (s_start (node_span p) <= s_start (node_span n))%N /\ (s_start (node_span n) <= s_end (node_span n))%N /\
  (s_end (node_span n) <= s_end (node_span p))%N.
Proof.
  intros T F ops t l id n p H E Ep. destruct (plain_facts T F ops t l H) as (A & _ & _). destruct H as (_ & Hf & _).
  pose proof (C08_all_nodes T F ops t l Hf) as (_ & G2 & G3 & _).
  destruct (G2 id n E) as (x & Hx & <- & V). destruct (G3 x Hx) as (q & s1 & s2 & Hs).
  destruct (C08_links T F ops t l q s1 x s2 n Hf Hs E) as (_ & Ap & _). rewrite Ep in Ap. unfold answers in Ap. simpl in Ap.
  destruct q as [q|]; [|discriminate]. simpl in Ap. injection Ap as Vi Vd Vs Vk.
  apply view_span in V. destruct V as (V1 & _). rewrite V1. rewrite Vs.
  assert (Hq : In q (preorder_list l) /\ r_kids q = s1 ++ x :: s2).
  { unfold sibling_lists in Hs. destruct Hs as [Hs|Hs]; [discriminate|]. apply in_map_iff in Hs as (q' & Eq & Hq).
    injection Eq as <- <-. auto. }
  destruct Hq as [Hq Hk]. destruct (proj2 laid_inside _ _ _ A q Hq) as (s & e & Hl & _). rewrite (laid_span _ _ _ Hl). simpl.
  inversion Hl; subst; simpl in Hk; try (destruct s1; discriminate). rewrite Hk in H.
  destruct (proj2 laid_inside _ _ _ H x) as (s' & e' & Hl' & B & C).
  { apply preorder_list_top. apply in_app_iff. simpl. auto. }
  rewrite (laid_span _ _ _ Hl'). simpl. apply laid_le in Hl'. auto.
Qed.
Print Assumptions C15_within.

(** ** C16: the tree *)
Theorem C16_tree_span : forall T F (ops : list (op T)) t l, plain_run F ops t l ->
  t_span t = Span 0 (total_of F ops) /\ tree_range F t = (0%N, total_of F ops) /\
  exists items, enumerates (total (children_next (t_nodes t))) (tree_children t) items /\
    tile 0 (map node_span items) (total_of F ops).
Proof.
  intros T F ops t l H. destruct (plain_facts T F ops t l H) as (A & B & _). destruct H as (HE & Hf & _).
  split; [auto|]. split.
  - unfold tree_range, span_range, ix_as_usize. rewrite B. simpl. destruct (fl_index F); congruence.
  - destruct (C07_roots T F ops t l Hf) as (items & En & Vs). exists items. split; auto.
    rewrite (proj1 (views_spans _ _ _ Vs)). apply laid_list_tile. auto.
Qed.
Print Assumptions C16_tree_span.

Lemma tile_join : forall spans s e, tile s spans e -> forall sp, s_start sp = s -> s_end sp = s ->
  fold_left span_join spans sp = Span s e.
Proof.
  assert (G : forall spans m e, tile m spans e -> forall s sp, s_start sp = s -> s_end sp = m -> (s <= m)%N ->
     fold_left span_join spans sp = Span s e).
  { induction spans as [|x spans IH]; simpl; intros m e H s sp H1 H2 H3.
    - subst. destruct sp; auto.
    - destruct H as (A & B & C). apply (IH (s_end x)); auto; unfold span_join; simpl; lia. }
  intros spans s e H sp H1 H2. eapply G; eauto. lia.
Qed.

(** .. which is the join of the root spans. *)
Theorem C16_join_of_roots : forall T F (ops : list (op T)) t l, plain_run F ops t l ->
  exists items, enumerates (total (children_next (t_nodes t))) (tree_children t) items /\
    fold_left span_join (map node_span items) (span_point 0) = t_span t.
Proof.
  intros T F ops t l H. destruct (C16_tree_span T F ops t l H) as (A & _ & items & En & Ht). exists items. split; auto.
  rewrite A. apply tile_join; auto.
Qed.
Print Assumptions C16_join_of_roots.

(** ** C17: losslessness *)
Theorem C17_lossless : forall T F (ops : list (op T)) t l B (source : list B), plain_run F ops t l ->
  N.of_nat (length source) = total_of F ops ->
  exists items, enumerates (walk_next F (t_nodes t)) (tree_walk t) items /\
    concat (map (fun n => slice source (node_span n)) (filter childless items)) = source /\
    forall n, In n items -> node_range F n = (s_start (node_span n), s_end (node_span n)).
Proof.
  intros T F ops t l B source H Hlen. destruct (C14_tile T F ops t l H) as (items & En & Ht).
  exists items. split; auto. split.
  - rewrite <- (map_map node_span (slice source)). rewrite (slice_tile source _ _ _ Ht). simpl.
    rewrite <- Hlen, Nat2N.id, Nat.sub_0_r. apply firstn_all.
  - intros n _. destruct H as (HE & _). unfold node_range, span_range, ix_as_usize. destruct (fl_index F); congruence.
Qed.
Print Assumptions C17_lossless.

(** A plain run with every kind of plain call, refused ones included. *)
Definition plain_demo_ops : list (op nat) :=
  [ OClose; OOpen 10; OToken 1 3; OCheckpoint; OToken 2 2; OOpen 12; OCloseAt 0 99; OClose; OCloseAt 0 11;
    OToken 9 4294967295; OTokenEmpty 3; OClose; OCheckpoint; OCloseAt 1 13; OToken 4 4 ].
Definition plain_demo_doc : list (rose nat) :=
  [ Nd 0 KOpen 10 (Span 0 5)
      [ Nd 1 KLeaf 1 (Span 0 3) [];
        Nd 4 KWrap 11 (Span 3 5) [ Nd 2 KLeaf 2 (Span 3 5) []; Nd 3 KOpen 12 (Span 5 5) [] ];
        Nd 5 KLeaf 3 (Span 5 5) [] ];
    Nd 6 KLeaf 13 (Span 5 5) [];
    Nd 7 KLeaf 4 (Span 5 9) [] ].
Definition plain_demo_tree : tree nat :=
  match build (w_builder (run_world flavor_default plain_demo_ops)) with Ok t => t | _ => tree_new end.

Example plain_inhabited : plain_run flavor_default plain_demo_ops plain_demo_tree plain_demo_doc /\
  total_of flavor_default plain_demo_ops = 9%N /\
  token_spans 0 plain_demo_ops (run_outs flavor_default plain_demo_ops) =
    [(1, Span 0 3); (2, Span 3 5); (5, Span 5 5); (7, Span 5 9)].
Proof.
  split; [|split; vm_compute; reflexivity]. split; [discriminate|]. split.
  - split; [|split; [|split]].
    + split; auto.
    + unfold document, describes.
      destruct (a_run flavor_default doc_new plain_demo_ops) as [[a rs]|] eqn:E; [|vm_compute in E; discriminate].
      exists a, rs. split; auto. vm_compute in E. injection E as <- <-. vm_compute. auto.
    + vm_compute. reflexivity.
    + vm_compute. reflexivity.
  - vm_compute. auto.
Qed.
