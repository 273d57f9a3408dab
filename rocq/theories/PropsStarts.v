(** C31 for trees whose tokens are filed under their starts: built with [token_with] alone, or modified. *)
From Coq Require Import Lia.
From Verif Require Import Base Pointer Index Tree Builder Hist Node Iter Query Edit Spec SpecEq SpecSpan SpecMap SpecRange SpecEdit SpecStarts Rep Refine TreeRep
  Enum Walk WalkTree WalkGen WalkThms Nav DocInv Layout Forward AllHist Demo PropsTree PropsSpan PropsEq PropsSafe PropsWith Range PropsRange Modify Replaced Copy PropsEdit PropsQuery.
Local Open Scope N_scope.

Section Starts.
Context {T : Type}.
Variable F : flavor.
Hypothesis HI : fl_indexes F = SVec.
Implicit Types a : doc T.

(** What is in the index: the childless nodes that are not empty, under their starts. *)
Definition kept a : Prop :=
  (forall x, In x (doc_nodes a) -> r_kids x = [] -> s_start (r_span x) <= s_end (r_span x)) /\
  (forall k id, In (k, id) (a_index a) <->
     exists x, In x (doc_nodes a) /\ r_kids x = [] /\ s_start (r_span x) < s_end (r_span x) /\ k = s_start (r_span x) /\ id = r_id x) /\
  (a_cur a = [] -> match a_open a with [] => True | f :: _ => s_start (f_span f) = s_end (f_span f) end).

Lemma doc_nodes_touch a e b : a_cur b = a_cur a -> a_open b = touch e (a_open a) -> doc_nodes b = doc_nodes a.
Proof. unfold doc_nodes. intros -> ->. destruct (a_open a); auto. Qed.

Lemma kept_same a b : a_cur b = a_cur a -> a_open b = a_open a -> a_index b = a_index a -> kept a -> kept b.
Proof. unfold kept, doc_nodes. intros -> -> ->. auto. Qed.

(** Adding a leaf. *)
Lemma kept_leaf a b x fs : a_cur b = a_cur a ++ [x] -> r_kids x = [] ->
  (forall y, In y (flat_map (fun f => preorder_list (f_left f)) fs) <-> In y (flat_map (fun f => preorder_list (f_left f)) (a_open a))) ->
  a_open b = fs -> s_start (r_span x) <= s_end (r_span x) ->
  a_index b = (if s_start (r_span x) <? s_end (r_span x) then a_index a ++ [(s_start (r_span x), r_id x)] else a_index a) ->
  kept a -> kept b.
Proof.
  intros Ec Ek Hf Eo Hx Ei (H1 & H2 & H3).
  assert (HN : forall y, In y (doc_nodes b) <-> In y (doc_nodes a) \/ y = x).
  { intros y. unfold doc_nodes. rewrite Ec, Eo, !in_app_iff. unfold preorder_list at 1. rewrite flat_map_app, in_app_iff. rewrite Hf.
    cbn [flat_map]. rewrite app_nil_r. destruct x as [i k d sp kids]. simpl in Ek. subst kids. simpl. fold (preorder_list (a_cur a)). intuition. }
  split; [|split].
  - intros y Hy. apply HN in Hy as [Hy| ->]; auto.
  - intros k id. rewrite Ei. destruct (N.ltb_spec (s_start (r_span x)) (s_end (r_span x))) as [L|L].
    + rewrite in_app_iff, H2. split.
      * intros [(y & Y1 & Y2)|[E|[]]]; [exists y; rewrite HN; auto|]. injection E as <- <-. exists x. rewrite HN. auto 6.
      * intros (y & Y1 & Y2). apply HN in Y1 as [Y1| ->]; [left; exists y; auto|]. right. left. f_equal; symmetry; tauto.
    + rewrite H2. split; intros (y & Y1 & Y2 & Y3 & Y4).
      * exists y. rewrite HN. auto.
      * apply HN in Y1 as [Y1| ->]; [exists y; auto|lia].
  - rewrite Ec. destruct (a_cur a); discriminate.
Qed.

Lemma kept_step a o a' r : spanned F o = true -> kept a -> a_step F a o = Some (a', r) -> kept a'.
Proof.
  intros Ho K E.
  assert (LT : forall e y, In y (flat_map (fun f => preorder_list (f_left f)) (touch e (a_open a))) <-> In y (flat_map (fun f => preorder_list (f_left f)) (a_open a))).
  { intros e y. destruct (a_open a); simpl; tauto. }
  assert (CA : forall k d, a_close_at F k d None a = Some (a', r) -> kept a').
  { intros k d E'. unfold a_close_at in E'. destruct (nth_error (a_marks a) k) as [m|]; [|injection E' as <- <-; auto].
    destruct (negb _); [injection E' as <- <-; auto|]. destruct (full F a); [injection E' as <- <-; auto|].
    destruct m as [lv pos|]; [|discriminate]. destruct (skipn pos (a_cur a)) as [|x w] eqn:Es; injection E' as <- <-.
    - eapply kept_leaf with (a := a); [reflexivity|reflexivity|apply LT|reflexivity|simpl; lia| |auto].
      cbn [r_span span_point s_start s_end]. rewrite N.ltb_irrefl. reflexivity.
    - destruct K as (H1 & H2 & H3).
      assert (HN : forall y, r_kids y = [] -> In y (doc_nodes (Doc (firstn pos (a_cur a) ++ [Nd (a_n a) KWrap d (run_span x w) (x :: w)])
                    (a_open a) (S (a_n a)) (a_cursor a) (a_span a) (a_index a) (map (swallow lv pos) (a_marks a)))) <-> In y (doc_nodes a)).
      { intros y Hy. unfold doc_nodes. cbn [a_cur a_open]. rewrite !in_app_iff.
        rewrite <- (firstn_skipn pos (a_cur a)) at 2. rewrite Es. unfold preorder_list. rewrite !flat_map_app, !in_app_iff.
        cbn [flat_map preorder]. rewrite app_nil_r. cbn [flat_map]. cbn [In]. rewrite in_app_iff.
        split; intros G; repeat (destruct G as [G|G]; auto); subst; try discriminate; tauto. }
      split; [|split].
      + intros y Hy Ky. apply H1; auto. apply HN; auto.
      + intros k0 id. cbn [a_index]. rewrite H2. split; intros (y & Y1 & Y2 & Y3); exists y; split; auto; apply HN; auto.
      + cbn [a_cur]. destruct (firstn pos (a_cur a)); discriminate. }
  assert (TK : forall d len, len_is_empty F len = true -> a_token F d len a = (a', r) -> kept a').
  { intros d len El E'. unfold a_token in E'. rewrite El in E'. destruct (full F a); injection E' as <- <-; auto.
    eapply kept_leaf with (a := a); [reflexivity|reflexivity|apply LT|reflexivity|simpl; lia| |auto].
    cbn [r_span s_start s_end]. rewrite N.ltb_irrefl. reflexivity. }
  destruct o; cbn [a_step spanned] in E, Ho; try discriminate; try (eapply CA; eauto; fail); injection E as E.
  - (* open *) unfold a_open_with in E. destruct (full F a); injection E as <- <-; auto.
    destruct K as (H1 & H2 & H3).
    assert (HN : forall b, a_cur b = [] -> a_open b = Frame (a_n a) d (span_point (a_cursor a)) (a_cur a) :: touch (s_end (span_point (a_cursor a))) (a_open a) ->
      forall y, In y (doc_nodes b) <-> In y (doc_nodes a)).
    { intros b E1 E2 y. unfold doc_nodes. rewrite E1, E2. cbn [flat_map f_left]. rewrite !in_app_iff, LT. simpl. tauto. }
    set (b := Doc _ _ _ _ _ _ _). pose proof (HN b eq_refl eq_refl) as HB. split; [|split].
    + intros y Hy. apply H1, HB; auto.
    + intros k id. cbn [a_index b]. rewrite H2. split; intros (y & Y1 & Y2); exists y; split; auto; apply HB; auto.
    + intros _. reflexivity.
  - (* close *) unfold a_close in E. destruct (a_open a) as [|f fs] eqn:Eo; injection E as <- <-; auto.
    destruct K as (H1 & H2 & H3). rewrite Eo in H3.
    set (b := Doc _ _ _ _ _ _ _).
    assert (HN : forall y, In y (doc_nodes b) <-> In y (doc_nodes a) \/ y = Nd (f_id f) KOpen (f_data f) (f_span f) (a_cur a)).
    { intros y. unfold doc_nodes, b. rewrite Eo. cbn [a_cur a_open flat_map]. rewrite !in_app_iff.
      unfold preorder_list at 1. rewrite flat_map_app, in_app_iff. cbn [flat_map preorder]. rewrite app_nil_r. cbn [In].
      fold (preorder_list (f_left f)). fold (preorder_list (a_cur a)).
      assert (Hw : In y (flat_map (fun f => preorder_list (f_left f)) (widen (f_span f) fs)) <-> In y (flat_map (fun f => preorder_list (f_left f)) fs)).
      { destruct fs; simpl; tauto. }
      rewrite Hw. intuition. }
    split; [|split].
    + intros y Hy Ky. apply HN in Hy as [Hy| ->]; auto. cbn [r_kids] in Ky. cbn [r_span]. specialize (H3 Ky). lia.
    + intros k id. cbn [a_index b]. rewrite H2. split; intros (y & Y1 & Y2 & Y3 & Y4).
      * exists y. rewrite HN. auto.
      * apply HN in Y1 as [Y1| ->]; [exists y; auto|]. cbn [r_kids r_span] in *. specialize (H3 Y2). lia.
    + cbn [a_cur b]. destruct (f_left f); discriminate.
  - eapply TK; eauto.
  - eapply TK; eauto. unfold len_is_empty. destruct (fl_index F); auto.
  - (* token_with *) unfold a_token_with in E. destruct (full F a); injection E as <- <-; auto. apply N.ltb_lt in Ho.
    eapply kept_leaf with (a := a) (x := Nd (a_n a) KLeaf d sp []); [reflexivity|reflexivity| |reflexivity|simpl; lia| |auto].
    + intros y. cbn [a_open push_index a_leaf]. destruct (a_open a); simpl; tauto.
    + cbn [a_index push_index a_leaf r_span r_id]. rewrite HI. destruct (N.ltb_spec (s_start sp) (s_end sp)); [auto|lia].
  - unfold a_checkpoint in E. destruct (full F a); injection E as <- <-; auto; eapply kept_same with (a := a); auto.
  - subst; eapply kept_same with (a := a); auto.
Qed.

Lemma kept_run ops : forall a a' rs, forallb (spanned F) ops = true -> kept a -> a_run F a ops = Some (a', rs) -> kept a'.
Proof.
  induction ops as [|o ops IH]; intros a a' rs Ho K E; [simpl in E; injection E as <- <-; auto|].
  cbn [a_run] in E. destruct (a_step F a o) as [[a1 r]|] eqn:E1; [|discriminate].
  destruct (a_run F a1 ops) as [[a2 rs']|] eqn:E2; [|discriminate]. injection E as <- <-.
  cbn [forallb] in Ho. apply andb_true_iff in Ho as [Ho1 Ho2]. apply (IH a1 a2 rs' Ho2 (kept_step a o a1 r Ho1 K E1) E2).
Qed.
End Starts.

Lemma starts_good T F (t : tree T) l : by_starts F t l -> fl_indexes F = SVec ->
  tree_rep t l /\ forward_leaves l /\ ascending (t_indexes t) /\ (forall k id, In (k, id) (t_indexes t) <-> In (k, id) (filed l)) /\
  good F t l.
Proof.
  intros H0 HI. induction H0 as [t l ops ks H Ho Hk HA|t l t0 l0 c fuel n s Hm HL Hp He E Hf|t l i n v t' old _ (R & HL & A & G & (_ & G2 & G3)) Hn E].
  - pose proof (fin_rep F ops t l H) as Hr. split; auto.
    rewrite (files_det T t l Hr _ _ _ Hk _ (built_index T F ops t l H HI)) in *.
    pose proof (fin_good F ops t l H) as D1.
    pose proof H as (HF & (a & rs & Hd & Hop & <-) & Hb & _).
    assert (K : kept a).
    { eapply (kept_run F HI ops doc_new); eauto. split; [intros x []|]. split; [intros k id; split; [intros []|intros (x & [] & _)]|simpl; auto]. }
    destruct (Refine.refines F HF ops a rs Hd) as (w & E & HR). unfold builds, run_world in Hb. rewrite E in Hb. simpl in Hb.
    pose proof (r_builder _ _ HR) as HB. unfold build in Hb. rewrite (br_parent _ _ HB), Hop in Hb. simpl in Hb. injection Hb as <-.
    destruct K as (K1 & K2 & _). unfold doc_nodes in K1, K2. rewrite Hop in K1, K2. cbn [flat_map] in K1, K2. rewrite app_nil_r in K1, K2.
    split; [exact K1|]. split; auto. split; [|auto].
    intros k id. rewrite (br_index _ _ HB), K2. unfold filed. rewrite in_map_iff. split.
    + intros (x & X1 & X2 & X3 & -> & ->). exists x. split; auto. apply filter_In. split; auto. unfold stands, span_is_empty.
      assert (has_kids x = false) as -> by (apply kids_none; auto). apply negb_true_iff, N.eqb_neq. lia.
    + intros (x & Ex & Hx). injection Ex as <- <-. apply filter_In in Hx as [X1 X2]. unfold stands in X2.
      apply andb_true_iff in X2 as [X2 X3]. apply negb_true_iff in X2, X3. apply kids_none in X2. unfold span_is_empty in X3. apply N.eqb_neq in X3.
      exists x. repeat split; auto. specialize (K1 x X1 X2). lia.
  - destruct (modified_facts T F t0 l0 c fuel t l n s Hm Hp He E) as (R & HL' & G). destruct (G HI HL) as [G1 G2].
    split; auto. split; auto. rewrite G1. split; auto. split; [tauto|].
    split; auto. split; auto. destruct (made_facts T F t l (made_modified F _ _ _ _ _ _ _ _ Hm Hp He E)) as (_ & _ & _ & W).
    pose proof (tr_length _ _ R) as El. unfold size_l in El. rewrite El. auto.
  - destruct (replaced_rep i v t l n t' old R Hn E) as (R' & El & Ei & _).
    split; auto. split. { intros x Hx. rewrite sv_preorder_list in Hx. apply in_map_iff in Hx as (y & <- & Hy). rewrite sv_span, sv_kids.
      intros Ky. apply HL; auto. destruct (r_kids y); auto; discriminate. }
    rewrite Ei. split; auto. split.
    + intros k id. rewrite G. unfold filed. rewrite sv_preorder_list.
      assert (M : forall xs : list (rose T), map (fun x => (s_start (r_span x), r_id x)) (filter stands (map (set_value i v) xs)) =
        map (fun x => (s_start (r_span x), r_id x)) (filter stands xs)).
      { induction xs as [|x xs IH]; auto. cbn [map filter]. replace (stands (set_value i v x)) with (stands x) by (destruct x as [? ? ? ? []]; auto).
        destruct (stands x); auto. cbn [map]. rewrite sv_span, sv_id, IH. auto. }
      rewrite M. tauto.
    + split; auto. unfold fits, tree_len in *. rewrite El. auto.
Qed.
Lemma starts_facts T F (t : tree T) l : by_starts F t l -> fl_indexes F = SVec ->
  tree_rep t l /\ forward_leaves l /\ ascending (t_indexes t) /\ (forall k id, In (k, id) (t_indexes t) <-> In (k, id) (filed l)) /\
  tree_len t = length (preorder_list l) /\
  (exists items, enumerates (walk_depths_next F (t_nodes t)) (tree_walk t) items /\
    map (fun i => (fst i, view (snd i))) items = map (fun i => (fst i, rview (snd i))) (flat_map (preorder_depth 0) l)).
Proof.
  intros H HI. destruct (starts_good T F t l H HI) as (R & HL & A & G & Hg). split; auto. split; auto. split; auto. split; auto.
  split; [apply (tr_length _ _ R)|]. apply (g_walk_depths_thm F t l Hg).
Qed.


(** In such trees a query from [s] starts at the token that starts first after [s]. *)
Lemma starts_answer T F (t : tree T) l bs p e x ch : by_starts F t l -> fl_indexes F = SVec -> meets_contract bs ->
  starts_next l p x -> ancestry l x ch ->
  exists m r, node_with_span bs t (Span p e) = Ok (Some m) /\ enclosing e ch r /\ view m = rview r /\ In r (preorder_list l).
Proof.
  intros H HI Hbs Hx Ha. destruct (starts_facts T F t l H HI) as (R & HL & A & G & _).
  eapply next_some; eauto. destruct (filed_starts T l p x HL Hx) as (k & H1 & H2 & H3).
  exists k. split; [apply G; auto|]. split; auto. intros k' id' Hk. apply (H3 k' id'). apply G; auto.
Qed.
Lemma starts_none T F (t : tree T) l bs p e : by_starts F t l -> fl_indexes F = SVec -> meets_contract bs ->
  (forall x, In x (preorder_list l) -> r_kids x = [] -> s_start (r_span x) < s_end (r_span x) -> s_start (r_span x) <= p) ->
  node_with_span bs t (Span p e) = Ok None.
Proof.
  intros H HI Hbs Hx. destruct (starts_facts T F t l H HI) as (R & HL & A & G & _).
  eapply next_none; eauto. intros k id Hk. apply (filed_ends T l p HL Hx k id). apply G; auto.
Qed.

(** Equal trees, however each of the two was made, built with [token_with] or modified: every query gives the same answer. *)
Theorem C31_starts_partial : forall T (eqT : T -> T -> bool) F1 (t1 : tree T) l1 F2 t2 l2 bs1 bs2 s e,
  by_starts F1 t1 l1 -> by_starts F2 t2 l2 -> fl_indexes F1 = SVec -> fl_indexes F2 = SVec ->
  meets_contract bs1 -> meets_contract bs2 ->
  tree_eq F1 F2 eqT t1 t2 = Ok true ->
  (node_with_span bs1 t1 (Span s e) = Ok None /\ node_with_span bs2 t2 (Span s e) = Ok None) \/
  (exists n1 n2, node_with_span bs1 t1 (Span s e) = Ok (Some n1) /\ node_with_span bs2 t2 (Span s e) = Ok (Some n2) /\ node_eq eqT n1 n2 = true).
Proof.
  intros T eqT F1 t1 l1 F2 t2 l2 bs1 bs2 s e S1 S2 I1 I2 B1 B2 E.
  destruct (starts_facts T F1 t1 l1 S1 I1) as (_ & _ & _ & _ & L1 & it1 & En1 & V1).
  destruct (starts_facts T F2 t2 l2 S2 I2) as (_ & _ & _ & _ & L2 & it2 & En2 & V2).
  assert (HA : Forall2 (alike eqT) l1 l2).
  { assert (Eb : tree_eq F1 F2 eqT t1 t2 = Ok (all2 (item_eq eqT) it1 it2)).
    { unfold tree_eq. apply iter_eq_all2; auto. rewrite L1, <- PropsFused.preorder_depth_len.
      rewrite <- (map_length (fun i => (fst i, rview (snd i)))), <- V1, map_length. auto. }
    rewrite E in Eb. injection Eb as Eb. symmetry in Eb. apply (items_meet eqT it1 it2 _ _ V1 V2) in Eb.
    eapply (depths_alike eqT _ l1 l2 0%Z [] []); simpl; auto. rewrite !app_nil_r. auto. }
  destruct (starts_or_not T l1 s) as [(x1 & X1)|X1].
  - right. destruct (ancestry_exists l1 x1 (proj1 X1)) as (ch1 & A1). destruct (alike_ancestry eqT l1 l2 x1 ch1 HA A1) as (x2 & ch2 & A2 & AX & AC).
    pose proof (alike_starts T eqT l1 l2 s x1 x2 HA (ancestry_in _ _ _ A2) AX X1) as X2.
    destruct (starts_answer T F1 t1 l1 bs1 s e x1 ch1 S1 I1 B1 X1 A1) as (m1 & r1 & Q1 & Y1 & W1 & _).
    destruct (starts_answer T F2 t2 l2 bs2 s e x2 ch2 S2 I2 B2 X2 A2) as (m2 & r2 & Q2 & Y2 & W2 & _).
    exists m1, m2. split; auto. split; auto.
    pose proof (alike_enclosing eqT e ch1 r1 Y1 ch2 r2 AC Y2) as AR.
    unfold node_eq. apply view_span in W1 as (K1 & _ & _ & D1). apply view_span in W2 as (K2 & _ & _ & D2).
    rewrite K1, K2, D1, D2. destruct AR; simpl in *. rewrite H. simpl. unfold span_eqb. rewrite !N.eqb_refl. auto.
  - left. split; [eapply starts_none; eauto|]. eapply starts_none; eauto.
    intros y Hy Ky Sy. destruct (alike_in T eqT l1 l2 y HA Hy) as (z & Hz & Ez & Kz). rewrite <- Ez in *. apply X1; auto.
Qed.
Print Assumptions C31_starts_partial.

(** Met by a tree built with [token_with] and the modified copy of a tree built with [token]. *)
Definition given_ops : list (op nat) := [OOpen 0; OTokenWith 1 (Span 0 3); OTokenWith 2 (Span 3 6); OClose; OTokenWith 3 (Span 6 7)]%nat.
Example C31_starts_inhabited : exists t1 t2, by_starts flavor_default t1 copy_doc /\
  (exists l2, by_starts flavor_default t2 l2) /\ tree_eq flavor_default flavor_default Nat.eqb t1 t2 = Ok true /\
  (exists n, node_with_range flavor_default std_search t1 3 6 = Ok (Some n) /\ node_value n = 3%nat) /\
  (exists n, node_with_range flavor_default std_search t2 3 6 = Ok (Some n) /\ node_value n = 3%nat).
Proof.
  assert (H1 : finished flavor_default given_ops (tree_so_far flavor_default given_ops) copy_doc) by compute_finished.
  destruct (modify 10 flavor_default changeset_new (tree_so_far flavor_default copy_ops)) as [t2|e|] eqn:E; try (vm_compute in E; discriminate).
  exists (tree_so_far flavor_default given_ops), t2.
  split.
  { eapply (starts_built flavor_default _ _ given_ops [(0, 1%nat); (3, 2%nat); (6, 3%nat)]); auto; [|simpl; repeat split].
    replace (run_outs flavor_default given_ops) with [RNode 0; RNode 1; RNode 2; RUnit; RNode 3]%nat by (vm_compute; reflexivity).
    apply files_other; [reflexivity|]. apply files_with. apply files_with. apply files_other; [reflexivity|]. apply files_with. constructor. }
  split.
  { assert (M : made flavor_default (tree_so_far flavor_default copy_ops) copy_doc).
    { apply (made_finished flavor_default copy_ops). exact (proj1 (proj2 copy_plain)). repeat constructor; discriminate. }
    destruct (C33_outcome _ flavor_default _ _ changeset_new M) as (l' & n & s & He & _); [intros i []|].
    exists l'. eapply starts_modified; [exact M| | |exact He|exact E|].
    - intros x Hx _. simpl in Hx. repeat destruct Hx as [<-|Hx]; simpl; try lia; try destruct Hx.
    - intros i [].
    - vm_compute in E. injection E as <-. vm_compute. reflexivity. }
  vm_compute in E. injection E as <-. split; [vm_compute; reflexivity|].
  split; eexists; split; vm_compute; reflexivity.
Qed.
