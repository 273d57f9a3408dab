(** Property theorems: modified trees can be used like built ones, and without the exceptions (C58). *)
From Coq Require Import Lia Permutation.
From Verif Require Import Base Pointer Index Tree Builder Hist Node Iter Query Edit Print Spec SpecEq SpecFind SpecMap SpecEdit SpecModified Rep Marks Refine TreeRep
  Enum Walk WalkTree WalkGen WalkThms Nav Skip Bounds Modify Replaced PropsTree PropsFused PropsEq PropsFind PropsSafe PropsEdit PropsQuery PropsWith Demo.
From Verif Require Direct.

(** ** What is known of a modified tree *)
Lemma mod_facts T F (t : tree T) l : modified F t l -> made F t l /\ tree_rep t l /\ (forall x, In x (preorder_list l) -> r_kind x <> KWrap).
Proof.
  induction 1 as [fuel c t0 l0 n s t l Hm Hp He E|t l i n v t' old M (Hm & Hr & Hk) Hn E].
  - split; [eapply made_modified; eauto|]. split; [|eapply edited_kinds; eauto]. eapply modified_facts; eauto.
  - split; [eapply made_replaced; eauto|]. split; [apply (replaced_rep i v t l n t' old Hr Hn E)|].
    intros x Hx. rewrite sv_preorder_list in Hx. apply in_map_iff in Hx as (y & <- & Hy). rewrite sv_kind. auto.
Qed.
Lemma made_good T F (t : tree T) l : made F t l -> fits F t -> good F t l.
Proof.
  intros H Hf. destruct (made_facts T F t l H) as (_ & R & _ & W). split; auto. split; auto.
  rewrite (tr_length _ _ R). unfold size_l in W. auto.
Qed.
Lemma mod_good T F (t : tree T) l : modified F t l -> fits F t -> good F t l.
Proof. intros H. apply made_good. apply (mod_facts T F t l H). Qed.
Lemma mod_fresh T F (t : tree T) l p s : modified F t l -> In (p, s) (sibling_lists l) -> fresh p s.
Proof.
  intros H Hs. destruct (mod_facts T F t l H) as (_ & R & K). apply (settled_fresh t l R p s Hs). unfold settled.
  destruct (last_error s) as [y|] eqn:E; auto.
  assert (Hy : r_kind y <> KWrap) by (apply K; eapply sibling_list_in; [exact Hs|apply last_error_in; auto]).
  destruct y as [? [] ? ? ?]; simpl in Hy; try congruence; destruct p as [[? [] ? ? ?]|]; auto.
Qed.

(** Every tree that modify returns is one, for exactly one document, numbered in walk order. *)
Theorem C58_document : forall T F (t0 : tree T) l0 c fuel t, made F t0 l0 -> pointers F c -> modify fuel F c t0 = Ok t ->
  exists l, modified F t l /\ made F t l /\ in_order l /\ forall l', modified F t l' -> fits F t ->
    map (fun i => (fst i, rview (snd i))) (flat_map (preorder_depth 0) l') = map (fun i => (fst i, rview (snd i))) (flat_map (preorder_depth 0) l).
Proof.
  intros T F t0 l0 c fuel t Hm Hp E. destruct (C33_outcome T F t0 l0 c Hm Hp) as (l & n & s & He & _ & Ho & _).
  assert (M : modified F t l) by (eapply modified_now; eauto).
  exists l. split; auto. split; [apply (mod_facts T F t l M)|]. split; auto. intros l' M' Hf.
  destruct (g_walk_depths_thm F t l (mod_good T F t l M Hf)) as (i1 & N1 & V1).
  destruct (g_walk_depths_thm F t l' (mod_good T F t l' M' Hf)) as (i2 & N2 & V2).
  rewrite <- V1, <- V2. f_equal. revert N1 N2. generalize (tree_walk t). clear. revert i2.
  induction i1 as [|a i1 IH]; intros [|b i2] w N1 N2; auto.
  - apply enumerates_nil in N1 as (w1 & E1 & _). apply enumerates_cons in N2 as (w2 & E2 & _). congruence.
  - apply enumerates_cons in N1 as (w1 & E1 & _). apply enumerates_nil in N2 as (w2 & E2 & _). congruence.
  - apply enumerates_cons in N1 as (w1 & E1 & N1). apply enumerates_cons in N2 as (w2 & E2 & N2).
    rewrite E1 in E2. injection E2 as -> ->. f_equal. eauto.
Qed.
Print Assumptions C58_document.

(** ** Nodes and links; sizes *)
Theorem C58_nodes : forall T F (t : tree T) l, modified F t l ->
  tree_len t = length (preorder_list l) /\
  (forall x, In x (preorder_list l) -> exists n, tree_get t (r_id x) = Some n /\ view n = rview x) /\
  (forall i n, tree_get t i = Some n -> exists x, In x (preorder_list l) /\ r_id x = i /\ view n = rview x) /\
  NoDup (map r_id (preorder_list l)).
Proof.
  intros T F t l M. destruct (mod_facts T F t l M) as (_ & R & _).
  assert (G : forall x, In x (preorder_list l) -> exists n, tree_get t (r_id x) = Some n /\ view n = rview x).
  { intros x Hx. destruct (in_sibling_lists _ _ Hx) as (p & s1 & s2 & Hs). pose proof (node_links _ _ _ _ _ _ R Hs) as E.
    assert (E2 : tree_get t (r_id x) = Some (r_id x, links_of (pid p) (last_id s1 None) (hd_id s2 None) x)).
    { unfold tree_get, node_at. rewrite E. auto. }
    eexists. split; [exact E2|]. apply (nav_links t l R _ _ _ _ _ Hs E2). }
  split; [apply (tr_length _ _ R)|]. split; auto. split.
  - intros i n E. assert (Hi : i < length (t_nodes t)).
    { unfold tree_get, node_at in E. apply nth_error_Some. intros Hx. rewrite Hx in E. discriminate. }
    destruct (preorder_of_id _ _ _ R Hi) as (x & Hx & <-). exists x. destruct (G x Hx) as (m & Em & V).
    split; auto. split; auto. congruence.
  - rewrite <- ids_l_preorder. eapply tr_nodup; eauto.
Qed.
Print Assumptions C58_nodes.

(** parent, prev, next, first and last of every node; first and last of the tree.  In a built tree [last] can be stale (C09). *)
Theorem C58_links : forall T F (t : tree T) l, modified F t l ->
  answers (tree_first t) (hd_error l) /\ answers (tree_last t) (last_error l) /\
  forall p s1 x s2 n, In (p, s1 ++ x :: s2) (sibling_lists l) -> tree_get t (r_id x) = Some n ->
    view n = rview x /\ answers (node_parent (t_nodes t) n) p /\ answers (node_prev (t_nodes t) n) (last_error s1) /\
    answers (node_next (t_nodes t) n) (hd_error s2) /\ answers (node_first (t_nodes t) n) (hd_error (r_kids x)) /\
    answers (node_last (t_nodes t) n) (last_error (r_kids x)).
Proof.
  intros T F t l M. destruct (mod_facts T F t l M) as (_ & R & _).
  assert (G : forall p s, In (p, s) (sibling_lists l) -> answers (node_opt (t_nodes t) (stored_last p s)) (last_error s)).
  { intros p s Hs. rewrite (mod_fresh T F t l p s M Hs). apply (answers_opt t l R); [apply last_error_id|].
    intros y Hy. eapply sibling_list_in; [exact Hs|apply last_error_in; auto]. }
  split; [apply (nav_first t l R)|]. split.
  - unfold tree_last. rewrite (tr_last _ _ R). apply (G None l). left; auto.
  - intros p s1 x s2 n Hs E. destruct (nav_links t l R _ _ _ _ _ Hs E) as (A1 & A2 & A3 & A4 & A5).
    split; auto. split; auto. split; auto. split; auto. split; auto.
    rewrite (at_node t l R _ _ _ _ _ Hs E). apply (G (Some x) (r_kids x)). apply kids_sibling_list.
    eapply sibling_list_in; [exact Hs|apply in_elt].
Qed.
Print Assumptions C58_links.

(** ** Iterators *)

(** walk(), with_depths() and walk_events() of the tree. *)
Theorem C58_walks : forall T F (t : tree T) l, modified F t l -> fits F t ->
  enumerates_nodes (walk_next F (t_nodes t)) (tree_walk t) (preorder_list l) /\
  (exists items, enumerates (walk_depths_next F (t_nodes t)) (tree_walk t) items /\
     map (fun i => (fst i, view (snd i))) items = map (fun i => (fst i, rview (snd i))) (flat_map (preorder_depth 0) l)) /\
  (exists items, enumerates (total (walk_events_next F (t_nodes t))) (tree_walk t) items /\
     map (fun i => (fst i, view (snd i))) items = map (fun i => (fst i, rview (snd i))) (events_list l)).
Proof.
  intros T F t l M Hf. pose proof (mod_good T F t l M Hf) as G.
  split; [apply (g_walk_thm F t l G)|]. split; [apply (g_walk_depths_thm F t l G)|apply (g_walk_events_thm F t l G)].
Qed.
Print Assumptions C58_walks.

(** .. and of a node. *)
Theorem C58_node_walks : forall T F (t : tree T) l x n, modified F t l -> fits F t -> In x (preorder_list l) -> tree_get t (r_id x) = Some n ->
  enumerates_nodes (inside_next F (t_nodes t)) (node_walk F n) (preorder x) /\
  (forall pre post, preorder_list l = pre ++ x :: post -> enumerates_nodes (walk_next F (t_nodes t)) (node_walk F n) (x :: post)) /\
  (forall pre post, preorder_list l = pre ++ preorder x ++ post -> enumerates_nodes (walk_next F (t_nodes t)) (node_walk_from F n) post) /\
  (forall pre k post, flat_map (preorder_depth 0) l = pre ++ (k, x) :: post -> exists items,
     enumerates (walk_depths_next F (t_nodes t)) (node_walk F n) items /\
     map (fun i => (fst i, view (snd i))) items = map (fun i => (fst i - k, rview (snd i))%Z) ((k, x) :: post)) /\
  (forall pre e post, events_list l = pre ++ (e, x) :: post -> e <> Up -> exists items,
     enumerates (total (walk_events_next F (t_nodes t))) (node_walk F n) items /\
     map (fun i => (fst i, view (snd i))) items = map (fun i => (fst i, rview (snd i))) ((Next, x) :: post)).
Proof.
  intros T F t l x n M Hf Hx E. pose proof (mod_good T F t l M Hf) as G. split; [|split; [|split; [|split]]].
  - unfold node_walk. rewrite (g_node_walk_id F t l G n x E Hx). exact (g_inside_from F t l G x Hx).
  - exact (g_node_walk_thm F t l G n x E).
  - exact (g_node_walk_from_thm F t l G n x E).
  - exact (g_node_walk_depths_thm F t l G n x E).
  - exact (g_node_walk_events_thm F t l G n x E).
Qed.
Print Assumptions C58_node_walks.

(** children() from both ends, in any order of calls, and with skip_tokens(); of a node and of the tree. *)
Theorem C58_children : forall T F (t : tree T) l c p s sched fuel, modified F t l -> In (p, s) (sibling_lists l) -> length s < fuel ->
  match p with
  | None => c = tree_children t
  | Some x => exists n, tree_get t (r_id x) = Some n /\ c = node_children n
  end ->
  (exists items, drive (total (children_next (t_nodes t))) (total (children_next_back (t_nodes t))) sched c = Ok items /\
     map (option_map view) items = map (option_map rview) (deque sched s)) /\
  (exists items, drive (skip_next fuel (total (children_next (t_nodes t)))) (skip_next fuel (total (children_next_back (t_nodes t)))) sched c = Ok items /\
     map (option_map view) items = map (option_map rview) (deque sched (filter has_kids s))).
Proof.
  intros T F t l c p s sched fuel M Hs Hfu Hc. destruct (mod_facts T F t l M) as (_ & R & _).
  assert (Hc' : is_children c p s).
  { destruct p as [x|].
    - destruct Hc as (n & E & ->). pose proof (parent_in l _ _ Hs x eq_refl) as Hx.
      rewrite (Direct.list_of l _ _ _ Hs (kids_sibling_list _ _ Hx)). apply (node_children_is t l R); auto.
    - subst c. rewrite (Direct.list_of l _ _ _ Hs (or_introl eq_refl)). apply (tree_children_is t l R). }
  pose proof (is_children_holds l c p s Hs Hc' (mod_fresh T F t l p s M Hs)) as H. split.
  - eapply (children_deque t l R); eauto.
  - eapply (skip_deque t l R); eauto.
Qed.
Print Assumptions C58_children.

Theorem C58_siblings : forall T F (t : tree T) l x n, modified F t l -> tree_get t (r_id x) = Some n ->
  (forall p s1 s2, In (p, s1 ++ x :: s2) (sibling_lists l) -> enumerates_nodes (total (siblings_next (t_nodes t))) (node_siblings n) (x :: s2)) /\
  (forall chain, ancestry l x chain -> enumerates_nodes (total (ancestors_next (t_nodes t))) (node_ancestors n) chain).
Proof.
  intros T F t l x n M E. destruct (mod_facts T F t l M) as (_ & R & _). split.
  - intros p s1 s2 Hs. eapply enum_rel_map; [|eapply (siblings_thm t l R); eauto]. intros a b [_ G]; auto.
  - intros chain Hc. eapply enum_rel_map; [|eapply (ancestors_thm t l R); eauto]. intros a b [_ G]; auto.
Qed.
Print Assumptions C58_siblings.

(** ** find_preceding *)
Section Ends.
Context {T St : Type}.
Variable t : tree T.
Variable l : list (rose T).
Hypothesis R : tree_rep t l.
Variable p : St -> node T -> St * bool.

Lemma kid_size (x y : rose T) : In x (r_kids y) -> size x < size y.
Proof.
  intros H. rewrite (size_eq y). apply in_split in H as (a & b & ->). unfold size_l, size, preorder_list.
  rewrite flat_map_app, app_length. simpl. rewrite app_length. lia.
Qed.
Lemma chain_size x ch : ancestry l x ch -> length ch + size x <= S (size_l l).
Proof.
  induction 1 as [x Hx|x y ch Hy IH Hx]; simpl.
  - pose proof (size_le l x (preorder_list_top l x Hx)). lia.
  - pose proof (kid_size x y Hx). lia.
Qed.
Lemma find_up_ends x ch : ancestry l x ch -> forall fuel st n, length ch <= fuel -> tree_get t (r_id x) = Some n ->
  exists st' o, find_up fuel (t_nodes t) p st n = Ok (st', o).
Proof.
  induction 1 as [x Hx|x y ch Hy IH Hx]; intros fuel st n Hf E; (destruct fuel as [|fuel]; [simpl in Hf; lia|]); simpl.
  - destruct (in_split _ _ Hx) as (s1 & s2 & El).
    assert (Hs : In (None, s1 ++ x :: s2) (sibling_lists l)) by (left; congruence).
    destruct (nav_links t l R _ _ _ _ _ Hs E) as (_ & A1 & _).
    assert (Ep : node_parent (t_nodes t) n = None) by (unfold answers in A1; destruct (node_parent (t_nodes t) n); auto; discriminate).
    rewrite Ep. destruct (node_prev (t_nodes t) n) as [m|]; [|eauto]. destruct (p st m) as [s [|]]; eauto.
  - destruct (in_split _ _ Hx) as (s1 & s2 & El). pose proof (ancestry_in l _ _ Hy) as Hyl.
    assert (Hs : In (Some y, s1 ++ x :: s2) (sibling_lists l)) by (rewrite <- El; apply kids_sibling_list; auto).
    destruct (nav_links t l R _ _ _ _ _ Hs E) as (_ & A1 & _).
    destruct (node_parent (t_nodes t) n) as [my|] eqn:Ep; [|discriminate]. unfold answers in A1. simpl in A1.
    assert (Ey : tree_get t (r_id y) = Some my).
    { assert (Ei : fst my = r_id y) by (unfold view, rview in A1; congruence). rewrite <- Ei. eapply opt_get; eauto. }
    simpl in Hf. destruct (node_prev (t_nodes t) n) as [m|]; [destruct (p st m) as [s [|]]; [eauto|]|]; apply IH; auto; lia.
Qed.
Lemma find_down_ends (Hset : forall x n, In x (preorder_list l) -> tree_get t (r_id x) = Some n -> answers (node_last (t_nodes t) n) (last_error (r_kids x))) :
  forall fuel st z n, In z (preorder_list l) -> tree_get t (r_id z) = Some n -> size z <= fuel ->
  exists st' r, find_down fuel (t_nodes t) p st n = Ok (st', r).
Proof.
  induction fuel as [|fuel IH]; intros st z n Hz E Hf; [rewrite size_eq in Hf; lia|]. simpl.
  pose proof (Hset z n Hz E) as A. unfold answers in A. destruct (node_last (t_nodes t) n) as [m|] eqn:Em; [|eauto].
  destruct (last_error (r_kids z)) as [y|] eqn:Ey; [|discriminate]. simpl in A. destruct (p st m) as [s [|]]; [|eauto].
  apply last_error_in in Ey. apply (IH s y m).
  - eapply preorder_list_kid; eauto.
  - assert (Ei : fst m = r_id y) by (unfold view, rview in A; congruence). rewrite <- Ei. eapply opt_get; eauto.
  - pose proof (kid_size y z Ey). lia.
Qed.
End Ends.

(** The documented search, with every call of the predicate.  In a built tree the way down can go wrong (C27). *)
Theorem C58_find : forall T St F (t : tree T) l x n chain p q (st : St), modified F t l ->
  ancestry l x chain -> tree_get t (r_id x) = Some n -> same_predicate p q ->
  exists o r st1 st2, find_preceding_mut (t_nodes t) p st n = Ok (st2, o) /\ seek_up l q st chain st1 r /\
    match r with
    | None => o = None /\ st2 = st1
    | Some z => exists y, seek_down q st1 z st2 y /\ answers o (Some y)
    end.
Proof.
  intros T St F t l x n chain p q st M Hc E Hpq. destruct (mod_facts T F t l M) as (_ & R & _).
  assert (Hset : forall y ny, In y (preorder_list l) -> tree_get t (r_id y) = Some ny -> answers (node_last (t_nodes t) ny) (last_error (r_kids y))).
  { intros y ny Hy Ey. destruct (in_sibling_lists _ _ Hy) as (p0 & s1 & s2 & Hs). apply (proj2 (proj2 (C58_links T F t l M)) p0 s1 y s2 ny Hs Ey). }
  pose proof (tr_length _ _ R) as El. pose proof (chain_size l x chain Hc) as Hcs. pose proof (size_eq x). unfold size_l in Hcs.
  destruct (find_up_ends t l R p x chain Hc (S (length (t_nodes t))) st n) as (st1 & o' & Ef); auto; [lia|].
  destruct (find_up_spec t l R p q Hpq x chain Hc _ _ _ n o' E Ef) as (r & H1 & H2 & H3). destruct r as [z|].
  - destruct H3 as (Hz & m & -> & Em). pose proof (size_le l z Hz) as Hsz. unfold size_l in Hsz.
    destruct (find_down_ends t l p Hset (S (length (t_nodes t))) st1 z m Hz Em) as (st2 & y & Ed); [lia|].
    exists (Some y), (Some z), st1, st2. unfold find_preceding_mut. rewrite Ef, Ed. split; auto. split; auto.
    destruct (find_down_spec t l R p q Hpq Hset _ _ _ z m y Hz Em Ed) as (y' & Y1 & Y2). exists y'. split; auto. unfold answers. simpl. congruence.
  - subst o'. exists None, None, st1, st1. unfold find_preceding_mut. rewrite Ef. auto.
Qed.
Print Assumptions C58_find.

(** ** Equality and Debug, between any two trees, built or modified *)
Theorem C58_equality : forall T (eqT : T -> T -> bool) F1 (t1 : tree T) l1 F2 t2 l2,
  made F1 t1 l1 -> fits F1 t1 -> made F2 t2 l2 -> fits F2 t2 ->
  exists b, tree_eq F1 F2 eqT t1 t2 = Ok b /\ (b = true <-> Forall2 (alike eqT) l1 l2).
Proof.
  intros T eqT F1 t1 l1 F2 t2 l2 H1 Hf1 H2 Hf2.
  destruct (g_walk_depths_thm F1 t1 l1 (made_good T F1 t1 l1 H1 Hf1)) as (it1 & En1 & V1).
  destruct (g_walk_depths_thm F2 t2 l2 (made_good T F2 t2 l2 H2 Hf2)) as (it2 & En2 & V2).
  exists (all2 (item_eq eqT) it1 it2). split.
  - unfold tree_eq. apply iter_eq_all2; auto. unfold tree_len. destruct (made_facts T F1 t1 l1 H1) as (_ & R & _).
    rewrite (tr_length _ _ R), <- preorder_depth_len.
    rewrite <- (map_length (fun i => (fst i, rview (snd i)))), <- V1, map_length. auto.
  - rewrite (items_meet eqT it1 it2 _ _ V1 V2). split; intros H.
    + eapply (depths_alike eqT _ l1 l2 0%Z [] []); simpl; auto. rewrite !app_nil_r. auto.
    + eapply alike_depths; eauto.
Qed.
Print Assumptions C58_equality.

(** The hypotheses are met: w{a, b} by a checkpoint, where the built tree's [last] is the token b and not the root w (C09); after a modify
    without changes it is w. *)
Example C58_inhabited : exists t t' l' n m, made flavor_default t [Nd 2 KWrap 12 (Span 0 2) [Nd 0 KLeaf 10 (Span 0 1) []; Nd 1 KLeaf 11 (Span 1 2) []]] /\
  tree_last t = Some n /\ node_value n = 11 /\ pointers flavor_default changeset_new /\
  modify 10 flavor_default changeset_new t = Ok t' /\ modified flavor_default t' l' /\ fits flavor_default t' /\
  l' = [Nd 0 KOpen 12 (Span 0 2) [Nd 1 KLeaf 10 (Span 0 1) []; Nd 2 KLeaf 11 (Span 1 2) []]] /\ tree_last t' = Some m /\ node_value m = 12 /\
  tree_eq flavor_default flavor_default Nat.eqb t t' = Ok true.
Proof.
  assert (Hm : made flavor_default (tree_so_far flavor_default wrapped_pair) [Nd 2 KWrap 12 (Span 0 2) [Nd 0 KLeaf 10 (Span 0 1) []; Nd 1 KLeaf 11 (Span 1 2) []]]).
  { apply (made_finished flavor_default wrapped_pair); [compute_finished|]. repeat constructor; discriminate. }
  exists (tree_so_far flavor_default wrapped_pair). do 2 eexists.
  exists (1, Links 11 (Span 1 2) (Some 2) (Some 0) None None None). eexists.
  split; [exact Hm|]. split; [vm_compute; reflexivity|]. split; [reflexivity|]. split; [intros i []|].
  split; [vm_compute; reflexivity|]. split.
  { eapply (modified_now flavor_default 10 changeset_new); [exact Hm|intros i []| |].
    - eapply ed_node; [right; reflexivity| |apply ed_nil]. apply ed_leaf; [right; reflexivity|]. apply ed_leaf; [right; reflexivity|]. apply ed_nil.
    - vm_compute; reflexivity. }
  split; [vm_compute; reflexivity|]. split; [vm_compute; reflexivity|]. split; [vm_compute; reflexivity|]. split; vm_compute; reflexivity.
Qed.
