(** C52: what range queries answer, for any tree; C31 for modified trees. *)
From Coq Require Import Lia.
From Verif Require Import Base Pointer Index Tree Builder Hist Node Iter Query Edit Spec SpecEq SpecSpan SpecRange SpecEdit Rep Refine TreeRep
  Enum Walk WalkTree WalkThms Nav DocInv Layout Forward AllHist Demo PropsTree PropsSpan PropsEq PropsSafe PropsWith Range PropsRange Modify Copy PropsEdit.
Local Open Scope N_scope.

(** ** A tree, its document, and an index with ascending keys *)
Section Answer.
Context {T : Type}.
Variable t : tree T.
Variable l : list (rose T).
Hypothesis Hrep : tree_rep t l.
Hypothesis HA : ascending (t_indexes t).
Variable bs : search.
Hypothesis Hbs : meets_contract bs.

Lemma pre_in (y x : rose T) : In x (r_kids y) -> (length (preorder x) < length (preorder y))%nat.
Proof.
  destruct y as [i k d sp kids]. simpl. intros H. apply in_split in H as (a & b & ->). rewrite flat_map_app, app_length. simpl. rewrite app_length. lia.
Qed.
Lemma chain_length x ch : ancestry l x ch -> (length ch + length (preorder x) <= S (length (preorder_list l)))%nat.
Proof.
  induction 1 as [x Hx|x y ch Hy IH Hx].
  - apply in_split in Hx as (a & b & ->). unfold preorder_list. rewrite flat_map_app, app_length. simpl. rewrite app_length. lia.
  - pose proof (pre_in _ _ Hx). simpl. lia.
Qed.
Lemma climb_total e : forall x ch, ancestry l x ch -> forall fuel n, (length ch <= fuel)%nat -> tree_get t (r_id x) = Some n ->
  exists o, climb fuel (t_nodes t) e n = Ok o.
Proof.
  induction 1 as [x Hx|x y ch Hy IH Hx]; intros fuel n L E; (destruct fuel as [|fuel]; [simpl in L; lia|]); cbn [climb].
  - destruct (in_split _ _ Hx) as (s1 & s2 & El).
    assert (Hs : In (None, s1 ++ x :: s2) (sibling_lists l)) by (left; congruence).
    destruct (nav_links t l Hrep _ _ _ _ _ Hs E) as (A0 & A1 & _). unfold answers in A1. destruct (node_parent (t_nodes t) n); [discriminate|]. eauto.
  - destruct (in_split _ _ Hx) as (s1 & s2 & El). pose proof (ancestry_in l _ _ Hy) as Hyl.
    assert (Hs : In (Some y, s1 ++ x :: s2) (sibling_lists l)) by (rewrite <- El; apply kids_sibling_list; auto).
    destruct (nav_links t l Hrep _ _ _ _ _ Hs E) as (_ & A1 & _).
    destruct (node_parent (t_nodes t) n) as [my|] eqn:Ep; [|eauto]. unfold answers in A1. simpl in A1.
    destruct (e <=? s_end (node_span my)); [eauto|]. apply IH; [simpl in L; lia|].
    assert (Ei : fst my = r_id y) by (unfold view, rview in A1; congruence). rewrite <- Ei. eapply opt_got; eauto.
Qed.

Lemma next_none s e : (forall k id, In (k, id) (t_indexes t) -> k <= s) -> node_with_span bs t (Span s e) = Ok None.
Proof.
  intros H. unfold node_with_span, node_with_span_internal. cbn [s_start s_end].
  set (n := match bs (t_indexes t) s with inl n => S n | inr n => n end).
  pose proof (contract_next bs _ s n Hbs HA eq_refl) as HN.
  destruct (nth_error (t_indexes t) n) as [[k id]|] eqn:E; auto.
  destruct (HN n k id E) as [_ G]. specialize (G (le_n _)). specialize (H k id (nth_error_In _ _ E)). lia.
Qed.
Lemma next_some s e x ch : next_filed (t_indexes t) s (r_id x) -> ancestry l x ch ->
  exists n r, node_with_span bs t (Span s e) = Ok (Some n) /\ enclosing e ch r /\ view n = rview r /\ In r (preorder_list l).
Proof.
  intros (k & Hin & Hk & Hmin) Ha. unfold node_with_span, node_with_span_internal. cbn [s_start s_end].
  set (n := match bs (t_indexes t) s with inl n => S n | inr n => n end).
  pose proof (contract_next bs _ s n Hbs HA eq_refl) as HN.
  destruct (In_nth_error _ _ Hin) as (i & Ei). destruct (HN i _ _ Ei) as [G _].
  assert (Hni : (n <= i)%nat). { destruct (Nat.le_gt_cases n i); auto. specialize (G H). lia. }
  assert (En : n = i).
  { destruct (Nat.eq_dec n i); auto. exfalso. destruct (nth_error (t_indexes t) n) as [[k' id']|] eqn:E.
    - destruct (HN n k' id' E) as [_ G']. specialize (G' (le_n _)). pose proof (Hmin k' id' (nth_error_In _ _ E) G').
      destruct (nth_key _ _ _ _ E) as [K1 _]. destruct (nth_key _ _ _ _ Ei) as [K2 L2]. pose proof (ascending_key _ HA n i ltac:(lia)). lia.
    - apply nth_error_None in E. destruct (nth_key _ _ _ _ Ei). lia. }
  rewrite En, Ei. pose proof (ancestry_in l _ _ Ha) as Hx. pose proof (preorder_id_lt _ _ _ Hrep Hx) as Hlt.
  assert (Em : exists m, tree_get t (r_id x) = Some m).
  { unfold tree_get, node_at. destruct (nth_error (t_nodes t) (r_id x)) eqn:El; eauto. apply nth_error_None in El. lia. }
  destruct Em as (m & Em). rewrite Em.
  destruct (climb_total e x ch Ha (S (tree_len t)) m) as (o & Eo); auto.
  { pose proof (chain_length x ch Ha) as L. pose proof (tr_length _ _ Hrep) as L2. unfold size_l in L2. unfold tree_len.
    destruct x as [? ? ? ? ?]. cbn [preorder length] in L. lia. }
  rewrite Eo. destruct (climb_spec t l Hrep e x ch Ha _ m o Em Eo) as (r & H1 & H2 & H3). exists o, r. auto.
Qed.
End Answer.

(** ** Histories *)
Lemma files_more T (a b : list (rose T)) ops rs ks : (forall x, In x a -> In x b) -> files a ops rs ks -> files b ops rs ks.
Proof. intros H. induction 1; try (constructor; auto; fail). Qed.

Lemma files_run T F (ops : list (op T)) : fl_indexes F = SVec -> forall a a' rs, a_run F a ops = Some (a', rs) ->
  exists ks, files (doc_nodes a') ops rs ks /\ a_index a' = a_index a ++ ks.
Proof.
  intros HI. induction ops as [|o ops IH]; intros a a' rs E.
  - simpl in E. injection E as <- <-. exists []. rewrite app_nil_r. split; auto. constructor.
  - cbn [a_run] in E. destruct (a_step F a o) as [[a1 r]|] eqn:E1; [|discriminate].
    destruct (a_run F a1 ops) as [[a2 rs']|] eqn:E2; [|discriminate]. injection E as <- <-.
    destruct (IH _ _ _ E2) as (ks & H1 & H2). destruct (given_run F ops _ _ _ E2) as [K _].
    assert (SAME : a_index a1 = a_index a -> makes_token o r = false -> exists ks, files (doc_nodes a2) (o :: ops) (r :: rs') ks /\ a_index a2 = a_index a ++ ks).
    { intros E0 Hm. exists ks. split; [constructor; auto|congruence]. }
    assert (CA : forall k d osp, a_close_at F k d osp a = Some (a1, r) -> a_index a1 = a_index a).
    { intros k d osp E'. unfold a_close_at in E'. destruct (nth_error (a_marks a) k) as [m|]; [|injection E' as <- <-; auto].
      destruct (negb _); [injection E' as <- <-; auto|]. destruct (full F a); [injection E' as <- <-; auto|].
      destruct m as [lv pos|]; [|discriminate]. destruct (skipn pos (a_cur a)); injection E' as <- <-; auto. }
    assert (LEAF : forall x xs, a_cur a1 = xs ++ [x] -> In x (doc_nodes a2)).
    { intros x xs Ex. apply K. unfold doc_nodes. rewrite Ex, pre_app, !in_app_iff. left. right. unfold preorder_list. simpl. rewrite app_nil_r. apply preorder_self. }
    assert (TK : forall d len, (exists d len, o = OToken d len) \/ (exists d, o = OTokenEmpty d) -> a_token F d len a = (a1, r) ->
       exists ks, files (doc_nodes a2) (o :: ops) (r :: rs') ks /\ a_index a2 = a_index a ++ ks).
    { intros d len Ho E'. assert (Hm : forall e, makes_token o (RErr e) = false) by (destruct Ho as [(? & ? & ->)|(? & ->)]; auto).
      unfold a_token in E'. destruct (len_is_empty F len) eqn:El.
      - destruct (full F a); injection E' as <- <-; [apply SAME; auto|].
        specialize (LEAF _ _ eq_refl). exists ks. split; [|auto]. pose proof (files_token _ o _ ops rs' ks Ho LEAF H1) as G.
        cbn [r_id r_span] in G. unfold span_is_empty in G. cbn [s_end s_start] in G. rewrite N.eqb_refl in G. exact G.
      - destruct (ix_checked_add_len F (a_cursor a) len) as [c|] eqn:Ec; [|injection E' as <- <-; apply SAME; auto].
        destruct (full F a); injection E' as <- <-; [apply SAME; auto|].
        assert (Hc : (c =? a_cursor a) = false).
        { apply N.eqb_neq. unfold len_is_empty, ix_checked_add_len in *. destruct (fl_index F); try discriminate;
            repeat match type of Ec with (if ?b then _ else _) = _ => destruct b; [|discriminate] end; injection Ec as <-; apply N.eqb_neq in El; lia. }
        specialize (LEAF _ _ eq_refl). exists ((c, a_n a) :: ks). split.
        + pose proof (files_token _ o _ ops rs' ks Ho LEAF H1) as G. cbn [r_id r_span] in G. unfold span_is_empty in G. cbn [s_end s_start] in G. rewrite Hc in G. exact G.
        + rewrite H2. simpl. rewrite HI, <- app_assoc. auto. }
    destruct o; cbn [a_step] in E1; try (apply SAME; [eapply CA; exact E1|reflexivity]); injection E1 as E1.
    + apply SAME; auto. unfold a_open_with in E1. destruct (full F a); injection E1 as <- <-; auto.
    + apply SAME; auto. unfold a_open_with in E1. destruct (full F a); injection E1 as <- <-; auto.
    + apply SAME; auto. unfold a_close in E1. destruct (a_open a); injection E1 as <- <-; auto.
    + eapply TK; eauto.
    + eapply TK; eauto.
    + unfold a_token_with in E1. destruct (full F a); injection E1 as <- <-; [apply SAME; auto|].
      exists ((s_start sp, a_n a) :: ks). split; [constructor; auto|]. rewrite H2. simpl. rewrite HI, <- app_assoc. auto.
    + apply SAME; auto. unfold a_checkpoint in E1. destruct (full F a); injection E1 as <- <-; auto.
    + subst. apply SAME; auto.
Qed.

Lemma files_det T (t : tree T) l : tree_rep t l -> forall ops rs ks, files (preorder_list l) ops rs ks -> forall ks', files (preorder_list l) ops rs ks' -> ks = ks'.
Proof.
  intros Hr. induction 1 as [|o x ops rs ks Ho Hx H IH|d sp id ops rs ks H IH|o r ops rs ks Hm H IH]; intros ks' H'.
  - inversion H'; auto.
  - inversion H' as [|o' x' ops' rs' ks1 Ho' Hx' H1|d' sp' id' ops' rs' ks1 H1|o' r' ops' rs' ks1 Hm' H1]; subst.
    + assert (x' = x) as -> by (eapply preorder_id_inj; eauto). rewrite (IH _ H1). auto.
    + destruct Ho as [(? & ? & Ho)|(? & Ho)]; discriminate.
    + destruct Ho as [(? & ? & ->)|(? & ->)]; discriminate.
  - inversion H' as [|o' x' ops' rs' ks1 Ho' Hx' H1|d' sp' id' ops' rs' ks1 H1|o' r' ops' rs' ks1 Hm' H1]; subst.
    + destruct Ho' as [(? & ? & Ho)|(? & Ho)]; discriminate.
    + rewrite (IH _ H1). auto.
    + discriminate.
  - inversion H' as [|o' x' ops' rs' ks1 Ho' Hx' H1|d' sp' id' ops' rs' ks1 H1|o' r' ops' rs' ks1 Hm' H1]; subst; auto.
    + destruct Ho' as [(? & ? & ->)|(? & ->)]; discriminate.
    + discriminate.
Qed.

Lemma built_index T F (ops : list (op T)) t l : finished F ops t l -> fl_indexes F = SVec ->
  files (preorder_list l) ops (run_outs F ops) (t_indexes t).
Proof.
  intros (HF & (a & rs & Hd & Ho & <-) & Hb & _) HI. assert (Hrs : run_outs F ops = rs) by (eapply C01_results; eauto). rewrite Hrs.
  destruct (files_run T F ops HI _ _ _ Hd) as (ks & H1 & H2). simpl in H2.
  destruct (Refine.refines F HF ops a rs Hd) as (w & E & HR). unfold builds, run_world in Hb. rewrite E in Hb. simpl in Hb.
  pose proof (r_builder _ _ HR) as HB. unfold build in Hb. rewrite (br_parent _ _ HB), Ho in Hb. simpl in Hb. injection Hb as <-.
  rewrite (br_index _ _ HB), H2. eapply files_more; [|exact H1]. unfold doc_nodes. rewrite Ho. simpl. intros x. rewrite app_nil_r. auto.
Qed.

(** Every tree a builder made, with whatever calls: the keys of its tokens are determined by the history. *)
Theorem C52_filed : forall T F (ops : list (op T)) t l, finished F ops t l ->
  exists! ks, files (preorder_list l) ops (run_outs F ops) ks.
Proof.
  intros T F ops t l H. pose proof H as (HF & (a & rs & Hd & Ho & Ecur) & Hb & _). assert (Hrs : run_outs F ops = rs) by (eapply C01_results; eauto).
  assert (G : exists ks, files (preorder_list l) ops rs ks).
  { assert (Hn : forall x, In x (doc_nodes a) -> In x (preorder_list l)).
    { unfold doc_nodes. rewrite Ho, Ecur. simpl. intros x. rewrite app_nil_r. auto. }
    clear - Hd Hn. unfold describes in Hd. revert a rs Hd Hn. generalize (@doc_new T) as a0. intros a0 a rs Hd Hn.
    assert (G : exists ks, files (doc_nodes a) ops rs ks).
    { clear Hn. revert a0 rs Hd. induction ops as [|o ops IH]; intros a0 rs E.
      - simpl in E. injection E as <- <-. exists []. constructor.
      - cbn [a_run] in E. destruct (a_step F a0 o) as [[a1 r]|] eqn:E1; [|discriminate].
        destruct (a_run F a1 ops) as [[a2 rs']|] eqn:E2; [|discriminate]. injection E as <- <-.
        destruct (IH _ _ E2) as (ks & H1). destruct (given_run F ops _ _ _ E2) as [K _].
        destruct (makes_token o r) eqn:Em; [|exists ks; constructor; auto].
        assert (LEAF : forall x xs, a_cur a1 = xs ++ [x] -> In x (doc_nodes a2)).
        { intros x xs Ex. apply K. unfold doc_nodes. rewrite Ex, pre_app, !in_app_iff. left. right. unfold preorder_list. simpl. rewrite app_nil_r. apply preorder_self. }
        assert (TK : forall d len, (exists d len, o = OToken d len) \/ (exists d, o = OTokenEmpty d) -> a_token F d len a0 = (a1, r) -> exists ks, files (doc_nodes a2) (o :: ops) (r :: rs') ks).
        { intros d len Hot E'. assert (Hm : forall e, makes_token o (RErr e) = false) by (destruct Hot as [(? & ? & ->)|(? & ->)]; auto).
          assert (X : exists x xs, a_cur a1 = xs ++ [x] /\ r = RNode (r_id x)).
          { clear IH E2. unfold a_token in E'. destruct (len_is_empty F len).
            - destruct (full F a0); injection E' as <- <-; [rewrite Hm in Em; discriminate|]. do 2 eexists. split; reflexivity.
            - destruct (ix_checked_add_len F (a_cursor a0) len); [|injection E' as <- <-; rewrite Hm in Em; discriminate].
              destruct (full F a0); injection E' as <- <-; [rewrite Hm in Em; discriminate|]. do 2 eexists. split; reflexivity. }
          destruct X as (x & xs & X1 & ->). eexists. eapply files_token; eauto. }
        destruct o; cbn [a_step] in E1; try (destruct r; discriminate).
        + injection E1 as E1. eapply TK; eauto.
        + injection E1 as E1. eapply TK; eauto.
        + destruct r; try discriminate. eexists. apply files_with. exact H1. }
    destruct G as (ks & G). exists ks. eapply files_more; eauto. }
  rewrite Hrs. destruct G as (ks & G). exists ks. split; auto. intros ks'. apply (files_det T t l (fin_rep F ops t l H) _ _ _ G).
Qed.
Print Assumptions C52_filed.

(** If the keys ascend, a query from [s] to [e] finds the token with the smallest key above [s], and goes up from there to the first
    strict ancestor that ends at or after [e], or to the root. *)
Theorem C52_answer : forall T F (ops : list (op T)) t l ks bs s e x ch,
  finished F ops t l -> fl_indexes F = SVec -> meets_contract bs -> files (preorder_list l) ops (run_outs F ops) ks -> ascending ks ->
  next_filed ks s (r_id x) -> ancestry l x ch ->
  exists n r, node_with_span bs t (Span s e) = Ok (Some n) /\ enclosing e ch r /\ view n = rview r /\ In r (preorder_list l).
Proof.
  intros T F ops t l ks bs s e x ch H HI Hbs Hk HA Hn Ha. pose proof (fin_rep F ops t l H) as Hr.
  rewrite (files_det T t l Hr _ _ _ Hk _ (built_index T F ops t l H HI)) in *. eapply next_some; eauto.
Qed.
Print Assumptions C52_answer.
Theorem C52_none : forall T F (ops : list (op T)) t l ks bs s e,
  finished F ops t l -> fl_indexes F = SVec -> meets_contract bs -> files (preorder_list l) ops (run_outs F ops) ks -> ascending ks ->
  (forall k id, In (k, id) ks -> k <= s) -> node_with_span bs t (Span s e) = Ok None.
Proof.
  intros T F ops t l ks bs s e H HI Hbs Hk HA Hn. pose proof (fin_rep F ops t l H) as Hr.
  rewrite (files_det T t l Hr _ _ _ Hk _ (built_index T F ops t l H HI)) in *. eapply next_none; eauto.
Qed.
Print Assumptions C52_none.

(** ** Modified trees *)
Section Edited.
Context {T : Type}.
Variable c : changeset.
Lemma edited_filed top f n s (xs : list (rose T)) xs' n' s' up : edited c top f n s xs xs' n' s' up ->
  ascending (filed xs') /\ (forall k id, In (k, id) (filed xs') -> s <= k < s').
Proof.
  assert (APP : forall a b m : N, forall p q, a <= m -> m <= b -> ascending p -> ascending q -> (forall k id, In (k, id) p -> a <= k < m) -> (forall k id, In (k, id) q -> m <= k < b) ->
     ascending (p ++ q) /\ (forall k id, In (k, id) (p ++ q) -> a <= k < b)).
  { intros a b m p q Ha Hb Hp Hq Bp Bq. split.
    - revert Hp Bp. induction p as [|[k id] p IH]; intros Hp Bp; auto. cbn [app]. destruct p as [|[k2 id2] p].
      + simpl. destruct q as [|[k3 id3] q]; [exact I|]. split; auto. simpl. specialize (Bp k id (or_introl eq_refl)). specialize (Bq k3 id3 (or_introl eq_refl)). lia.
      + destruct Hp as [P1 P2]. split; auto. apply IH; auto. intros. apply (Bp k0 id0). right. auto.
    - intros k id Hin. apply in_app_iff in Hin as [Hin|Hin]; [specialize (Bp _ _ Hin)|specialize (Bq _ _ Hin)]; lia. }
  induction 1 as [tp force n s|tp force n s i k d sp xs xs' n2 s2 up Hck H [IH1 IH2]|tp force n s i k d sp y kids kids' n1 s1 xs xs' n2 s2 up Hck HK [IK1 IK2] H [IH1 IH2]
    |tp force n s i k d sp y kids kids' n1 s1 xs xs' n2 s2 up Hck HK [IK1 IK2] H [IH1 IH2]|tp n s x y xs out n2 s2 up Hck H IH|n s x Hck|n s x Hck]; auto;
    try (split; [exact I|intros k0 id0 []]).
  - rewrite filed_leaf. destruct (edited_mono _ _ _ _ _ _ _ _ _ _ _ H). apply (APP s s2 (s + width sp)); auto; try lia.
    + destruct (_ =? _); exact I.
    + destruct (N.eqb_spec (s + width sp) s); intros k0 id0 Hin; [destruct Hin|]. destruct Hin as [Hin|[]]. injection Hin as <- <-. lia.
  - rewrite filed_node. destruct (edited_mono _ _ _ _ _ _ _ _ _ _ _ H). destruct (edited_mono _ _ _ _ _ _ _ _ _ _ _ HK). apply (APP s s2 s1); auto.
  - rewrite filed_node. destruct (edited_mono _ _ _ _ _ _ _ _ _ _ _ H). destruct (edited_mono _ _ _ _ _ _ _ _ _ _ _ HK). apply (APP s s2 s1); auto.
Qed.
Lemma edited_forward top f n s (xs : list (rose T)) xs' n' s' up : edited c top f n s xs xs' n' s' up -> forward_leaves xs'.
Proof.
  induction 1; unfold forward_leaves in *; intros z Hz; try (destruct Hz; fail); auto;
    apply in_pre_cons in Hz as [->|[Hz|Hz]]; simpl; auto; try lia; try (destruct Hz; fail).
  all: intros ->; unfold last_reach; simpl; lia.
Qed.
End Edited.

Lemma filed_starts T (l : list (rose T)) s x : forward_leaves l -> starts_next l s x -> next_filed (filed l) s (r_id x).
Proof.
  intros HL (H1 & H2 & H3 & H4). exists (s_start (r_span x)). split; [|split; [lia|]].
  - unfold filed. apply in_map_iff. exists x. split; auto. apply filter_In. split; auto. unfold stands, span_is_empty.
    assert (has_kids x = false) as -> by (apply kids_none; auto). apply negb_true_iff. apply N.eqb_neq. lia.
  - intros k' id' Hin Hk'. unfold filed in Hin. apply in_map_iff in Hin as (y & Ey & Hy). injection Ey as <- <-. apply filter_In in Hy as [Hy1 Hy2].
    unfold stands in Hy2. apply andb_true_iff in Hy2 as [Hy2 Hy3]. apply negb_true_iff in Hy2, Hy3. apply kids_none in Hy2.
    apply H4; auto. split; auto. specialize (HL y Hy1 Hy2). unfold span_is_empty in Hy3. apply N.eqb_neq in Hy3. lia.
Qed.
Lemma filed_ends T (l : list (rose T)) s : forward_leaves l ->
  (forall x, In x (preorder_list l) -> r_kids x = [] -> s_start (r_span x) < s_end (r_span x) -> s_start (r_span x) <= s) ->
  forall k id, In (k, id) (filed l) -> k <= s.
Proof.
  intros HL H k id Hin. unfold filed in Hin. apply in_map_iff in Hin as (y & Ey & Hy). injection Ey as <- <-. apply filter_In in Hy as [Hy1 Hy2].
  unfold stands in Hy2. apply andb_true_iff in Hy2 as [Hy2 Hy3]. apply negb_true_iff in Hy2, Hy3. apply kids_none in Hy2.
  apply H; auto. specialize (HL y Hy1 Hy2). unfold span_is_empty in Hy3. apply N.eqb_neq in Hy3. lia.
Qed.

Lemma modified_facts T F (t : tree T) l c fuel t' l' n s : made F t l -> pointers F c -> edited c true false 0 0 l l' n s false -> modify fuel F c t = Ok t' ->
  tree_rep t' l' /\ forward_leaves l' /\ (fl_indexes F = SVec -> forward_leaves l -> t_indexes t' = filed l' /\ ascending (filed l')).
Proof.
  intros Hm Hp He E. destruct (made_facts T F t l Hm) as (HF & Hr & Hz & _).
  pose proof (modify_exact T F t l c HF Hr Hz (pointers_hits F c Hp) l' n s He) as [[B G]|[B G]].
  - destruct (G (S n) (le_n _)) as (t2 & E2 & _ & R & Ix).
    assert (t2 = t') as ->.
    { assert (A : modify (fuel + S (S n)) F c t = Ok t') by (apply modify_more; auto; discriminate).
      assert (A2 : modify (S (S n) + fuel) F c t = Ok t2) by (apply modify_more; auto; discriminate).
      rewrite Nat.add_comm in A. congruence. }
    split; auto. split; [eapply edited_forward; eauto|]. intros HI HL. split; auto. apply (edited_filed _ _ _ _ _ _ _ _ _ _ He).
  - exfalso. specialize (G (S n) (le_n _)).
    assert (A : modify (fuel + S (S n)) F c t = Ok t') by (apply modify_more; auto; discriminate).
    assert (A2 : modify (S (S n) + fuel) F c t = Err Overflow) by (apply modify_more; auto; discriminate).
    rewrite Nat.add_comm in A. congruence.
Qed.

(** In a modified tree: from the token that starts first after [s], not from the one at [s]. *)
Theorem C52_modified : forall T F (t : tree T) l c fuel t' l' n s bs p e x ch,
  made F t l -> forward_leaves l -> pointers F c -> edited c true false 0 0 l l' n s false -> modify fuel F c t = Ok t' ->
  fl_indexes F = SVec -> meets_contract bs -> starts_next l' p x -> ancestry l' x ch ->
  exists m r, node_with_span bs t' (Span p e) = Ok (Some m) /\ enclosing e ch r /\ view m = rview r /\ In r (preorder_list l').
Proof.
  intros T F t l c fuel t' l' n s bs p e x ch Hm HL Hp He E HI Hbs Hx Ha.
  destruct (modified_facts T F t l c fuel t' l' n s Hm Hp He E) as (R & HL' & G). destruct (G HI HL) as [G1 G2].
  eapply next_some; eauto; rewrite G1; auto. apply filed_starts; auto.
Qed.
Print Assumptions C52_modified.
Theorem C52_modified_none : forall T F (t : tree T) l c fuel t' l' n s bs p e,
  made F t l -> forward_leaves l -> pointers F c -> edited c true false 0 0 l l' n s false -> modify fuel F c t = Ok t' ->
  fl_indexes F = SVec -> meets_contract bs ->
  (forall x, In x (preorder_list l') -> r_kids x = [] -> s_start (r_span x) < s_end (r_span x) -> s_start (r_span x) <= p) ->
  node_with_span bs t' (Span p e) = Ok None.
Proof.
  intros T F t l c fuel t' l' n s bs p e Hm HL Hp He E HI Hbs Hx.
  destruct (modified_facts T F t l c fuel t' l' n s Hm Hp He E) as (R & HL' & G). destruct (G HI HL) as [G1 G2].
  eapply next_none; eauto; rewrite G1; auto. apply filed_ends; auto.
Qed.
Print Assumptions C52_modified_none.
(** The tokens of a modified tree never have their spans turned around, so it can be modified again. *)
Theorem C52_modified_forward : forall T (c : changeset) (l l' : list (rose T)) n s, edited c true false 0 0 l l' n s false -> forward_leaves l'.
Proof. intros. eapply edited_forward; eauto. Qed.
Print Assumptions C52_modified_forward.

(** ** C31 *)
Lemma alike_flip T (eqT : T -> T -> bool) (x y : rose T) : alike eqT x y -> alike (fun a b => eqT b a) y x.
Proof.
  revert y. induction x as [i k d sp kids IH] using rose_ind'. intros y H. inversion H as [? ? ? k' ? d' ? ? kids' Hd HK]; subst. constructor; auto.
  clear - IH HK. induction HK; constructor; inversion IH; subst; auto.
Qed.
Lemma alike_flips T (eqT : T -> T -> bool) (l l' : list (rose T)) : Forall2 (alike eqT) l l' -> Forall2 (alike (fun a b => eqT b a)) l' l.
Proof. induction 1; constructor; auto. apply alike_flip; auto. Qed.
Lemma alike_in T (eqT : T -> T -> bool) (l l' : list (rose T)) y : Forall2 (alike eqT) l l' -> In y (preorder_list l') ->
  exists x, In x (preorder_list l) /\ r_span x = r_span y /\ (r_kids y = [] -> r_kids x = []).
Proof.
  intros H Hy. apply alike_flips in H. destruct (ancestry_exists l' y Hy) as (ch & Hc).
  destruct (alike_ancestry _ l' l y ch H Hc) as (x & ch' & Hx & A & _). exists x. split; [apply (ancestry_in _ _ _ Hx)|].
  split; [symmetry; eapply alike_span; eauto|]. intros Ek. pose proof (alike_kids _ _ _ A) as K. rewrite Ek in K. inversion K. auto.
Qed.
Lemma alike_starts T (eqT : T -> T -> bool) (l l' : list (rose T)) s x x' : Forall2 (alike eqT) l l' -> In x' (preorder_list l') -> alike eqT x x' ->
  starts_next l s x -> starts_next l' s x'.
Proof.
  intros H Hx' A (H1 & H2 & H3 & H4). pose proof (alike_span _ _ _ A) as Es. split; auto.
  split. { pose proof (alike_kids _ _ _ A) as K. rewrite H2 in K. inversion K. auto. }
  rewrite <- Es. split; auto. intros y Hy Ky Sy. destruct (alike_in T eqT l l' y H Hy) as (z & Hz & Ez & Kz). rewrite <- Ez in *. apply H4; auto.
Qed.
Lemma starts_or_not T (l : list (rose T)) s : (exists x, starts_next l s x) \/
  (forall x, In x (preorder_list l) -> r_kids x = [] -> s_start (r_span x) < s_end (r_span x) -> s_start (r_span x) <= s).
Proof.
  assert (G : forall m : list (rose T), (exists x, In x m /\ r_kids x = [] /\ s < s_start (r_span x) < s_end (r_span x) /\
       forall y, In y m -> r_kids y = [] -> s < s_start (r_span y) < s_end (r_span y) -> s_start (r_span x) <= s_start (r_span y)) \/
     (forall x, In x m -> r_kids x = [] -> s_start (r_span x) < s_end (r_span x) -> s_start (r_span x) <= s)).
  { induction m as [|z m IH]; [right; intros x []|].
    assert (D : (r_kids z = [] /\ s < s_start (r_span z) < s_end (r_span z)) \/ ~ (r_kids z = [] /\ s < s_start (r_span z) < s_end (r_span z))).
    { destruct (r_kids z); [|right; intros [? _]; discriminate].
      destruct (N.lt_ge_cases s (s_start (r_span z))), (N.lt_ge_cases (s_start (r_span z)) (s_end (r_span z))); (left; split; auto; lia) || (right; intros [_ ?]; lia). }
    destruct D as [[D1 D2]|D].
    - left. destruct IH as [(x & X1 & X2 & X3 & X4)|IH].
      + destruct (N.le_gt_cases (s_start (r_span x)) (s_start (r_span z))).
        * exists x. split; [right; auto|]. split; auto. split; auto. intros y [<-|Hy]; auto.
        * exists z. split; [left; auto|]. split; auto. split; auto. intros y [<-|Hy] Ky Sy; [lia|]. specialize (X4 y Hy Ky Sy). lia.
      + exists z. split; [left; auto|]. split; auto. split; auto. intros y [<-|Hy] Ky Sy; [lia|]. specialize (IH y Hy Ky ltac:(lia)). lia.
    - destruct IH as [(x & X1 & X2 & X3 & X4)|IH].
      + left. exists x. split; [right; auto|]. split; auto. split; auto. intros y [<-|Hy] Ky Sy; auto. exfalso. apply D. auto.
      + right. intros y [<-|Hy] Ky Sy; auto. destruct (N.le_gt_cases (s_start (r_span z)) s); auto. exfalso. apply D. auto. }
  destruct (G (preorder_list l)) as [(x & X1 & X2 & X3 & X4)|X]; [left; exists x; split; auto|right; auto].
Qed.
Lemma eq_alike T (eqT : T -> T -> bool) F1 F2 (t1 : tree T) l1 (t2 : tree T) l2 : presents F1 t1 l1 -> presents F2 t2 l2 -> tree_eq F1 F2 eqT t1 t2 = Ok true -> Forall2 (alike eqT) l1 l2.
Proof.
  intros (L1 & (it1 & En1 & V1) & _) (L2 & (it2 & En2 & V2) & _) E.
  assert (Eb : tree_eq F1 F2 eqT t1 t2 = Ok (all2 (item_eq eqT) it1 it2)).
  { unfold tree_eq. apply iter_eq_all2; auto. rewrite L1, <- PropsFused.preorder_depth_len.
    rewrite <- (map_length (fun i => (fst i, rview (snd i)))), <- V1, map_length. auto. }
  rewrite E in Eb. injection Eb as Eb. symmetry in Eb. apply (items_meet eqT it1 it2 _ _ V1 V2) in Eb.
  eapply (depths_alike eqT _ l1 l2 0%Z [] []); simpl; auto. rewrite !app_nil_r. auto.
Qed.

(** Modified trees that compare equal: every query gives the same answer, up to identifiers.  (An equal tree that was built with
    [token] may answer differently: C31_modify_refuted.) *)
Theorem C31_modified_partial : forall T (eqT : T -> T -> bool) F1 (t1 : tree T) l1 c1 fuel1 t1' F2 t2 l2 c2 fuel2 t2' bs1 bs2 s e,
  made F1 t1 l1 -> forward_leaves l1 -> pointers F1 c1 -> modify fuel1 F1 c1 t1 = Ok t1' -> fits F1 t1' -> fl_indexes F1 = SVec -> meets_contract bs1 ->
  made F2 t2 l2 -> forward_leaves l2 -> pointers F2 c2 -> modify fuel2 F2 c2 t2 = Ok t2' -> fits F2 t2' -> fl_indexes F2 = SVec -> meets_contract bs2 ->
  tree_eq F1 F2 eqT t1' t2' = Ok true ->
  (node_with_span bs1 t1' (Span s e) = Ok None /\ node_with_span bs2 t2' (Span s e) = Ok None) \/
  (exists n1 n2, node_with_span bs1 t1' (Span s e) = Ok (Some n1) /\ node_with_span bs2 t2' (Span s e) = Ok (Some n2) /\ node_eq eqT n1 n2 = true).
Proof.
  intros T eqT F1 t1 l1 c1 fuel1 t1' F2 t2 l2 c2 fuel2 t2' bs1 bs2 s e M1 W1 P1 E1 Z1 I1 B1 M2 W2 P2 E2 Z2 I2 B2 E.
  destruct (C33_outcome T F1 t1 l1 c1 M1 P1) as (l1' & n1 & s1 & He1 & _). destruct (C33_outcome T F2 t2 l2 c2 M2 P2) as (l2' & n2 & s2 & He2 & _).
  destruct (modified_facts T F1 t1 l1 c1 fuel1 t1' l1' n1 s1 M1 P1 He1 E1) as (R1 & _).
  destruct (modified_facts T F2 t2 l2 c2 fuel2 t2' l2' n2 s2 M2 P2 He2 E2) as (R2 & _).
  pose proof (rep_presents T F1 t1' l1' R1 Z1 (edited_kinds _ _ _ _ _ _ _ _ _ _ _ He1)) as S1.
  pose proof (rep_presents T F2 t2' l2' R2 Z2 (edited_kinds _ _ _ _ _ _ _ _ _ _ _ He2)) as S2.
  pose proof (eq_alike T eqT F1 F2 t1' l1' t2' l2' S1 S2 E) as HA.
  destruct (starts_or_not T l1' s) as [(x1 & X1)|X1].
  - right. destruct (ancestry_exists l1' x1 (proj1 X1)) as (ch1 & A1). destruct (alike_ancestry eqT l1' l2' x1 ch1 HA A1) as (x2 & ch2 & A2 & AX & AC).
    pose proof (alike_starts T eqT l1' l2' s x1 x2 HA (ancestry_in _ _ _ A2) AX X1) as X2.
    destruct (C52_modified T F1 t1 l1 c1 fuel1 t1' l1' n1 s1 bs1 s e x1 ch1 M1 W1 P1 He1 E1 I1 B1 X1 A1) as (m1 & r1 & Q1 & Y1 & V1 & _).
    destruct (C52_modified T F2 t2 l2 c2 fuel2 t2' l2' n2 s2 bs2 s e x2 ch2 M2 W2 P2 He2 E2 I2 B2 X2 A2) as (m2 & r2 & Q2 & Y2 & V2 & _).
    exists m1, m2. split; auto. split; auto.
    pose proof (alike_enclosing eqT e ch1 r1 Y1 ch2 r2 AC Y2) as AR.
    unfold node_eq. apply view_span in V1 as (K1 & _ & _ & D1). apply view_span in V2 as (K2 & _ & _ & D2).
    rewrite K1, K2, D1, D2. destruct AR; simpl in *. rewrite H. simpl. unfold span_eqb. rewrite !N.eqb_refl. auto.
  - left. split; [apply (C52_modified_none T F1 t1 l1 c1 fuel1 t1' l1' n1 s1 bs1 s e); auto|].
    apply (C52_modified_none T F2 t2 l2 c2 fuel2 t2' l2' n2 s2 bs2 s e); auto.
    intros y Hy Ky Sy. destruct (alike_in T eqT l1' l2' y HA Hy) as (z & Hz & Ez & Kz). rewrite <- Ez in *. apply X1; auto.
Qed.
Print Assumptions C31_modified_partial.

(** Met by real trees: tokens and tokens with spans mixed, with ascending keys; and a modified tree. *)
Definition mixed_ops : list (op nat) := [OOpen 10; OToken 1 3; OTokenWith 2 (Span 5 8); OTokenEmpty 3; OToken 4 2; OClose]%nat.
Definition mixed_doc : list (rose nat) :=
  [ Nd 0 KOpen 10 (Span 0 10) [Nd 1 KLeaf 1 (Span 0 3) []; Nd 2 KLeaf 2 (Span 5 8) []; Nd 3 KLeaf 3 (Span 8 8) []; Nd 4 KLeaf 4 (Span 8 10) []] ]%nat.
Example C52_inhabited : exists t, finished flavor_default mixed_ops t mixed_doc /\
  files (preorder_list mixed_doc) mixed_ops (run_outs flavor_default mixed_ops) [(3, 1%nat); (5, 2%nat); (10, 4%nat)] /\
  ascending [(3, 1%nat); (5, 2%nat); (10, 4%nat)] /\ next_filed [(3, 1%nat); (5, 2%nat); (10, 4%nat)] 3 2%nat /\
  (exists n, node_with_range flavor_default std_search t 3 4 = Ok (Some n) /\ node_value n = 10%nat) /\
  node_with_range flavor_default std_search t 10 10 = Ok None.
Proof.
  exists (tree_so_far flavor_default mixed_ops). split; [compute_finished|]. split.
  { replace (run_outs flavor_default mixed_ops) with [RNode 0; RNode 1; RNode 2; RNode 3; RNode 4; RUnit]%nat by (vm_compute; reflexivity).
    apply files_other; [reflexivity|].
    apply (@files_token _ _ (OToken 1%nat 3) (Nd 1 KLeaf 1 (Span 0 3) [])%nat); [left; eauto|simpl; auto|].
    apply files_with.
    apply (@files_token _ _ (OTokenEmpty 3%nat) (Nd 3 KLeaf 3 (Span 8 8) [])%nat); [right; eauto|simpl; auto 10|].
    apply (@files_token _ _ (OToken 4%nat 2) (Nd 4 KLeaf 4 (Span 8 10) [])%nat _ _ []); [left; eauto|simpl; auto 10|].
    apply files_other; [reflexivity|constructor]. }
  split; [simpl; repeat split|]. split.
  { exists 5. split; [simpl; auto|]. split; [lia|]. intros k' id' H L. simpl in H. repeat destruct H as [H|H]; try (injection H as <- <-; lia). destruct H. }
  split; [eexists; split; vm_compute; reflexivity|vm_compute; reflexivity].
Qed.
Definition shifted : list (rose nat) := [ Nd 0 KOpen 0 (Span 0 3) [Nd 1 KLeaf 2 (Span 0 3) []]; Nd 2 KLeaf 3 (Span 3 4) [] ]%nat.
Example C52_modified_inhabited : exists t t' x ch, made flavor_default t copy_doc /\ forward_leaves copy_doc /\ pointers flavor_default [1%nat] /\
  edited [1%nat] true false 0 0 copy_doc shifted 3 4 false /\
  modify 10 flavor_default [1%nat] t = Ok t' /\ starts_next shifted 1 x /\ ancestry shifted x ch /\
  fits flavor_default t' /\ tree_eq flavor_default flavor_default Nat.eqb t' t' = Ok true /\
  (exists n, node_with_range flavor_default std_search t' 1 2 = Ok (Some n) /\ node_value n = 3%nat).
Proof.
  exists (tree_so_far flavor_default copy_ops). eexists. exists (Nd 2 KLeaf 3 (Span 3 4) [])%nat, [Nd 2 KLeaf 3 (Span 3 4) []]%nat.
  split. { apply (made_finished flavor_default copy_ops). exact (proj1 (proj2 copy_plain)). repeat constructor; discriminate. }
  split. { intros x Hx _. simpl in Hx. repeat destruct Hx as [<-|Hx]; simpl; lia. }
  split. { intros i [<-|[]]. vm_compute. reflexivity. }
  split.
  { apply (@ed_node _ _ true false 0 0 0 KOpen 0 (Span 0 6) (Nd 1 KLeaf 1 (Span 0 3) []) [Nd 2 KLeaf 2 (Span 3 6) []] [Nd 1 KLeaf 2 (Span 0 3) []] 2 3 _ _ 3 4 false)%nat.
    - right. reflexivity.
    - apply ed_skip; [reflexivity|]. apply (@ed_leaf _ _ false true 1 0 2 KLeaf 2 (Span 3 6) [] [] 2 3 false)%nat; [left; auto|constructor].
    - apply (@ed_leaf _ _ true false 2 3 3 KLeaf 3 (Span 6 7) [] [] 3 4 false)%nat; [right; reflexivity|constructor]. }
  split; [vm_compute; reflexivity|].
  split. { split; [simpl; auto|]. split; [auto|]. split; [simpl; lia|]. intros y Hy _ L. simpl in Hy. repeat destruct Hy as [<-|Hy]; simpl in *; lia. }
  split; [constructor; simpl; auto|]. split; [vm_compute; auto|]. split; [vm_compute; reflexivity|].
  eexists. split; vm_compute; reflexivity.
Qed.
