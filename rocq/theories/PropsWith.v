(** Property theorems: explicit spans (C18). *)
From Coq Require Import Lia.
From Verif Require Import Base Pointer Index Tree Builder Hist Node Iter Spec SpecForward Rep Refine TreeRep
  Enum WalkThms Nav DocInv Layout Forward PropsTree PropsSpan.
Local Open Scope N_scope.

Ltac compute_finished :=
  split; [split; auto|]; split; [|split; vm_compute; reflexivity];
  match goal with |- document ?F ?ops _ =>
    destruct (a_run F doc_new ops) as [[a rs]|] eqn:E; [|vm_compute in E; discriminate];
    exists a, rs; split; auto; vm_compute in E; injection E as <- <-; vm_compute; auto
  end.

Lemma fin_run T F (ops : list (op T)) t l : finished F ops t l ->
  exists a, a_run F doc_new ops = Some (a, run_outs F ops) /\ a_open a = [] /\ a_cur a = l.
Proof.
  intros (HF & (a & rs & Hd & Ho & <-) & Hb & _). exists a. split; auto.
  assert (Hrs : run_outs F ops = rs) by (eapply C01_results; eauto). rewrite Hrs. auto.
Qed.

Lemma parent_doc T F (ops : list (op T)) t l id n p : finished F ops t l ->
  tree_get t id = Some n -> node_parent (t_nodes t) n = Some p ->
  exists x q s1 s2, In q (preorder_list l) /\ r_kids q = s1 ++ x :: s2 /\ view n = rview x /\ view p = rview q.
Proof.
  intros Hf E Ep. pose proof (C08_all_nodes T F ops t l Hf) as (_ & G2 & G3 & _).
  destruct (G2 id n E) as (x & Hx & <- & V). destruct (G3 x Hx) as (q & s1 & s2 & Hs).
  destruct (C08_links T F ops t l q s1 x s2 n Hf Hs E) as (_ & Ap & _). rewrite Ep in Ap. unfold answers in Ap. simpl in Ap.
  destruct q as [q|]; [|discriminate]. simpl in Ap.
  assert (Hq : In q (preorder_list l) /\ r_kids q = s1 ++ x :: s2).
  { unfold sibling_lists in Hs. destruct Hs as [Hs|Hs]; [discriminate|]. apply in_map_iff in Hs as (q' & Eq & Hq).
    injection Eq as <- <-. auto. }
  exists x, q, s1, s2. split; [apply Hq|]. split; [apply Hq|]. split; auto. congruence.
Qed.

(** A node made with [token_with] or [close_at_with] reports exactly the span given; whatever the
    history. *)
Theorem C18_given_partial : forall T F (ops : list (op T)) t l id sp, finished F ops t l ->
  In (id, sp) (given ops (run_outs F ops)) -> exists n, tree_get t id = Some n /\ node_span n = sp.
Proof.
  intros T F ops t l id sp H Hin. destruct (fin_run T F ops t l H) as (a & Hd & Ho & Hc).
  destruct (given_run F ops _ _ _ Hd) as [_ G]. destruct (G id sp Hin) as (x & Hx & <- & <-).
  unfold doc_nodes in Hx. rewrite Ho, Hc in Hx. simpl in Hx. rewrite app_nil_r in Hx.
  destruct (proj1 (C08_all_nodes T F ops t l H) x Hx) as (n & E & V). apply view_span in V. exists n. tauto.
Qed.
Print Assumptions C18_given_partial.

(** A node made with [open_with] starts no later than the span given; without children it reports
    exactly that span. *)
Theorem C18_open_with_partial : forall T F (ops : list (op T)) t l id sp, finished F ops t l ->
  In (id, sp) (opened_with ops (run_outs F ops)) ->
  exists n, tree_get t id = Some n /\ s_start (node_span n) <= s_start sp /\
    (has_children n = false -> node_span n = sp).
Proof.
  intros T F ops t l id sp H Hin. destruct (fin_run T F ops t l H) as (a & Hd & Ho & Hc).
  destruct (opened_run F ops _ _ _ Hd) as [_ G].
  destruct (G id sp Hin) as [(fs1 & f & fs2 & Eo & _)|(x & Hx & <- & Hs & Hk)]; [rewrite Ho in Eo; destruct fs1; discriminate|].
  unfold doc_nodes in Hx. rewrite Ho, Hc in Hx. simpl in Hx. rewrite app_nil_r in Hx.
  destruct (proj1 (C08_all_nodes T F ops t l H) x Hx) as (n & E & V). apply view_span in V as (V1 & V2 & V3 & V4). exists n.
  rewrite V1, V2. split; auto. split; auto. unfold has_kids. intros Hh. apply Hk. destruct (r_kids x); auto. discriminate.
Qed.
Print Assumptions C18_open_with_partial.

(** If the calls go forward then the document is ordered: every node encloses its children, which
    follow each other. *)
Theorem C18_forward_partial : forall T F (ops : list (op T)) t l, finished F ops t l -> forward F 0 doc_new ops ->
  (exists e, ordered_list 0 l e) /\
  (forall id n p, tree_get t id = Some n -> node_parent (t_nodes t) n = Some p ->
     encloses (node_span p) (node_span n) /\ s_start (node_span n) <= s_end (node_span n)) /\
  (forall id n m, tree_get t id = Some n -> node_next (t_nodes t) n = Some m -> s_end (node_span n) <= s_start (node_span m)).
Proof.
  intros T F ops t l H Hfw. destruct (fin_run T F ops t l H) as (a & Hd & Ho & Hc).
  destruct (forward_run F ops 0 doc_new a _ doc_new_ord Hd Hfw) as (c & [(s & H1 & _) _]). rewrite Hc in H1.
  assert (A : ordered_list 0 l c) by (eapply ordered_list_weak; eauto; lia).
  split; [eauto|]. split.
  - intros id n p E Ep. destruct (parent_doc T F ops t l id n p H E Ep) as (x & q & s1 & s2 & Hq & Hk & V & Vp).
    apply view_span in V as (V1 & _). apply view_span in Vp as (V2 & _). rewrite V1, V2.
    destruct (proj2 ordered_inside _ _ _ A q Hq) as (s' & e' & Hoq). apply ordered_le in Hoq as (_ & _ & _ & Hl).
    destruct (ordered_members _ _ _ Hl x) as (B1 & B2 & B3); [rewrite Hk; apply in_app_iff; simpl; auto|]. unfold encloses. auto.
  - intros id n m E En. pose proof (C08_all_nodes T F ops t l H) as (_ & G2 & G3 & _).
    destruct (G2 id n E) as (x & Hx & <- & V). destruct (G3 x Hx) as (q & s1 & s2 & Hs).
    destruct (C08_links T F ops t l q s1 x s2 n H Hs E) as (_ & _ & _ & An & _). rewrite En in An. unfold answers in An. simpl in An.
    destruct s2 as [|y s2]; [discriminate|]. simpl in An. assert (Vm : view m = rview y) by congruence.
    apply view_span in V as (V1 & _). apply view_span in Vm as (V2 & _). rewrite V1, V2.
    assert (Hl : exists u v, ordered_list u (s1 ++ x :: y :: s2) v).
    { unfold sibling_lists in Hs. destruct Hs as [Hs|Hs]; [injection Hs as _ <-; eauto|].
      apply in_map_iff in Hs as (q' & Eq & Hq). injection Eq as _ <-.
      destruct (proj2 ordered_inside _ _ _ A q' Hq) as (s' & e' & Hoq). apply ordered_le in Hoq. destruct Hoq as (_ & _ & _ & Hl). eauto. }
    destruct Hl as (u & v & Hl). apply ordered_app in Hl as (m1 & _ & Hl). inversion Hl as [|? ? m2 ? ? Hx1 Hx2]; subst. inversion Hx2 as [|? ? m3 ? ? Hy1 Hy2]; subst.
    apply ordered_le in Hx1. apply ordered_le in Hy1. lia.
Qed.
Print Assumptions C18_forward_partial.

Local Close Scope N_scope.
Definition with_demo : list (op nat) :=
  [OOpenWith 1 (Span 2 9); OTokenWith 2 (Span 3 4); OCheckpoint; OSetCursor 5; OToken 3 2; OOpenWith 4 (Span 8 8); OClose;
   OCloseAt 0 5; OClose; OTokenWith 6 (Span 10 12)].
Definition with_demo_tree : tree nat :=
  match build (w_builder (run_world flavor_default with_demo)) with Ok t => t | _ => tree_new end.
Definition with_demo_doc : list (rose nat) :=
  [Nd 0 KOpen 1 (Span 2 8) [Nd 1 KLeaf 2 (Span 3 4) []; Nd 4 KWrap 5 (Span 5 8) [Nd 2 KLeaf 3 (Span 5 7) []; Nd 3 KOpen 4 (Span 8 8) []]];
   Nd 5 KLeaf 6 (Span 10 12) []].
Example C18_inhabited : finished flavor_default with_demo with_demo_tree with_demo_doc /\ forward flavor_default 0 doc_new with_demo /\
  opened_with with_demo (run_outs flavor_default with_demo) = [(0, Span 2 9); (3, Span 8 8)] /\
  given with_demo (run_outs flavor_default with_demo) = [(1, Span 3 4); (5, Span 10 12)].
Proof.
  split; [compute_finished|]. split; [|split; vm_compute; reflexivity].
  vm_compute. repeat (split; try discriminate).
Qed.

(** The full C18 is false of the code.  A node opened with 0..10 and given a child 2..4 reports
    0..4, which does not contain the span given: *)
Theorem C18_open_with_refuted : exists (ops : list (op nat)) t l id sp n,
  finished flavor_default ops t l /\ In (id, sp) (opened_with ops (run_outs flavor_default ops)) /\
  tree_get t id = Some n /\ ~ encloses (node_span n) sp.
Proof.
  set (ops := [OOpenWith 1 (Span 0 10); OTokenWith 2 (Span 2 4); OClose] : list (op nat)).
  set (t := match build (w_builder (run_world flavor_default ops)) with Ok t => t | _ => tree_new end).
  exists ops, t, [Nd 0 KOpen 1 (Span 0 4) [Nd 1 KLeaf 2 (Span 2 4) []]], 0, (Span 0 10). eexists.
  split; [compute_finished|]. split; [vm_compute; auto|]. split; [vm_compute; reflexivity|].
  vm_compute. intros [_ H]. apply H. reflexivity.
Qed.
Print Assumptions C18_open_with_refuted.

(** .. a node whose tokens are added out of order does not enclose them: *)
Theorem C18_enclose_refuted : exists (ops : list (op nat)) t l id n p,
  finished flavor_default ops t l /\ tree_get t id = Some n /\ node_parent (t_nodes t) n = Some p /\
  ~ encloses (node_span p) (node_span n).
Proof.
  set (ops := [OOpen 1; OTokenWith 2 (Span 5 10); OTokenWith 3 (Span 0 3); OClose] : list (op nat)).
  set (t := match build (w_builder (run_world flavor_default ops)) with Ok t => t | _ => tree_new end).
  exists ops, t, [Nd 0 KOpen 1 (Span 0 3) [Nd 1 KLeaf 2 (Span 5 10) []; Nd 2 KLeaf 3 (Span 0 3) []]], 1. do 2 eexists.
  split; [compute_finished|]. split; [vm_compute; reflexivity|]. split; [vm_compute; reflexivity|].
  vm_compute. intros [_ H]. apply H. reflexivity.
Qed.
Print Assumptions C18_enclose_refuted.

(** .. and neither does the parent of a node made with [close_at_with]: *)
Theorem C18_wrapper_refuted : exists (ops : list (op nat)) t l id n p,
  finished flavor_default ops t l /\ tree_get t id = Some n /\ node_parent (t_nodes t) n = Some p /\
  ~ encloses (node_span p) (node_span n).
Proof.
  set (ops := [OOpen 1; OCheckpoint; OToken 2 3; OCloseAtWith 0 3 (Span 0 7); OClose] : list (op nat)).
  set (t := match build (w_builder (run_world flavor_default ops)) with Ok t => t | _ => tree_new end).
  exists ops, t, [Nd 0 KOpen 1 (Span 0 3) [Nd 2 KWrap 3 (Span 0 7) [Nd 1 KLeaf 2 (Span 0 3) []]]], 2. do 2 eexists.
  split; [compute_finished|]. split; [vm_compute; reflexivity|]. split; [vm_compute; reflexivity|].
  vm_compute. intros [_ H]. apply H. reflexivity.
Qed.
Print Assumptions C18_wrapper_refuted.
