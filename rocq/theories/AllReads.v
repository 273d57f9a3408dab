(** All histories: [first] and [next] lead to every node, in one way. *)
From Coq Require Import Lia QArith Lqa Permutation.
From Verif Require Import Base Pointer Index Tree Builder Hist Node Iter Edit Spec SpecReads SpecEdit Rep Refine AllHist AllWalk StepFacts AllPlaced TreeRep Nav Modify PropsSafe.
Open Scope nat_scope.

Definition real {T} (t : tree T) (o : option (node T)) : Prop := forall n, o = Some n -> tree_get t (fst n) = Some n.
Lemma real_opt T (t : tree T) o : real t (node_opt (t_nodes t) o).
Proof.
  intros n E. destruct o as [i|]; [|discriminate]. simpl in E. unfold tree_get, node_at in *.
  destruct (nth_error (t_nodes t) i) eqn:En; [|discriminate]. injection E as <-. simpl. rewrite En. auto.
Qed.

Lemma reads_in T (t : tree T) o l : reads t o l -> real t o -> forall y, In y (preorder_list l) ->
  exists n k kids, tree_get t (fst n) = Some n /\ y = Nd (fst n) k (node_value n) (node_span n) kids /\ has_children n = match kids with [] => false | _ => true end /\ reads t (node_first (t_nodes t) n) kids.
Proof.
  induction 1 as [|n k kids rest H0 H1 IH1 H2 IH2]; intros Hr y Hy; [destruct Hy|].
  apply in_pre_cons in Hy as [->|[Hy|Hy]].
  - exists n, k, kids. split; [apply Hr; auto|]. auto.
  - apply IH1; auto. apply real_opt.
  - apply IH2; auto. apply real_opt.
Qed.

Lemma reads_at T (t : tree T) s1 : forall o x s2, reads t o (s1 ++ x :: s2) -> real t o ->
  exists n k kids, tree_get t (fst n) = Some n /\ x = Nd (fst n) k (node_value n) (node_span n) kids /\ has_children n = match kids with [] => false | _ => true end /\
    reads t (node_first (t_nodes t) n) kids /\ reads t (node_next (t_nodes t) n) s2.
Proof.
  induction s1 as [|y s1 IH]; intros o x s2 H Hr; simpl in H; inversion H; subst.
  - exists n, k, kids. split; [apply Hr; auto|]. auto.
  - eapply IH; eauto. apply real_opt.
Qed.

Lemma reads_leads T (t : tree T) o l : reads t o l -> real t o -> leads t o l.
Proof. intros H Hr. destruct H; simpl; auto. exists n. split; auto. apply Hr. auto. Qed.

Lemma reads_source T (t : tree T) l : reads t (tree_first t) l -> source t l.
Proof.
  intros H. assert (Hr : real t (tree_first t)) by apply real_opt. split; [apply reads_leads; auto|].
  intros p s1 x s2 n Hs En.
  assert (G : exists o, reads t o (s1 ++ x :: s2) /\ real t o).
  { destruct Hs as [E|Hs]; [injection E as <- <-; eauto|].
    apply in_map_iff in Hs as (y & E & Hy). injection E as <- Ek. destruct (reads_in _ _ _ _ H Hr y Hy) as (m & k & kids & Em & -> & _ & Hk).
    simpl in Ek. subst kids. eexists. split; [exact Hk|apply real_opt]. }
  destruct G as (o & Ho & Hro). destruct (reads_at _ _ _ _ _ _ Ho Hro) as (m & k & kids & Em & -> & Hc & Hk & Hn).
  unfold isnode in En. simpl in En. assert (n = m) by congruence. subst n. simpl.
  split; [auto|]. split; [auto|]. split; [exact Hc|split; apply reads_leads; auto; apply real_opt].
Qed.

(** ** Existence *)
Section Table.
Context {T : Type}.
Variable t : tree T.
Variables lo hi cap : nat -> Q.
Hypothesis HT : table_inv (t_nodes t) lo hi cap.
Let n := length (t_nodes t).

Definition link (a b : nat) : Prop := exists l, nth_error (t_nodes t) a = Some l /\ (l_first l = Some b \/ l_next l = Some b).
Inductive below : nat -> nat -> Prop :=
| bl_refl i : below i i
| bl_step i j k : below i j -> link j k -> below i k.

Lemma link_lo a b : link a b -> b < n /\ (lo a < lo b)%Q.
Proof.
  intros (l & E & [H|H]).
  - apply (li_first _ _ _ _ _ _ (HT _ _ E) b H).
  - destruct (li_next _ _ _ _ _ _ (HT _ _ E) b H) as (_ & A & _ & ly & Ey & _). pose proof (li_lo _ _ _ _ _ _ (HT _ _ E)).
    split; [eapply nth_lt; eauto|lra].
Qed.
Lemma below_lo a b : below a b -> (lo a <= lo b)%Q.
Proof. induction 1; [lra|]. apply link_lo in H0. lra. Qed.
Lemma below_trans a b c : below a b -> below b c -> below a c.
Proof. intros H Hb. induction Hb as [|i j k Hb IH Hl]; auto. apply (bl_step a j); auto. Qed.

Lemma link_opt (o : option nat) (m : node T) : node_opt (t_nodes t) o = Some m -> o = Some (fst m) /\ nth_error (t_nodes t) (fst m) = Some (snd m).
Proof.
  destruct o as [i|]; [|discriminate]. simpl. unfold node_at. destruct (nth_error (t_nodes t) i) eqn:E; [|discriminate].
  intros H. injection H as <-. auto.
Qed.

Lemma reads_exist : forall k i, i < n -> count (los (t_nodes t) lo) (lo i) <= k ->
  exists l, reads t (node_at (t_nodes t) i) l.
Proof.
  induction k as [|k IH]; intros i Hi Hk.
  - exfalso. pose proof (count_lt (los (t_nodes t) lo) (lo i) (lo i + 1)%Q (lo i) (in_los _ _ _ Hi)) as G.
    assert (count (los (t_nodes t) lo) (lo i + 1) < count (los (t_nodes t) lo) (lo i)) by (apply G; lra). lia.
  - destruct (nth_in (t_nodes t) i Hi) as [l E].
    assert (G : forall o, (forall y, o = Some y -> link i y) -> exists r, reads t (node_opt (t_nodes t) o) r).
    { intros [y|] Ho; [|exists []; constructor]. destruct (link_lo _ _ (Ho y eq_refl)) as [Hy Hl]. simpl. apply IH; auto.
      pose proof (count_lt (los (t_nodes t) lo) (lo i) (lo y) (lo i) (in_los _ _ _ Hi)) as G.
      assert (count (los (t_nodes t) lo) (lo y) < count (los (t_nodes t) lo) (lo i)) by (apply G; lra). lia. }
    destruct (G (l_first l)) as [kids Hk1]; [intros y Hy; exists l; auto|].
    destruct (G (l_next l)) as [rest Hr]; [intros y Hy; exists l; auto|].
    unfold node_at. rewrite E. exists (Nd i KLeaf (l_data l) (l_span l) kids :: rest).
    apply (rd_node t (i, l)); auto. unfold has_children. simpl. destruct (l_first l) as [y|] eqn:Ef.
    + simpl in Hk1. unfold node_at in Hk1. destruct (nth_in (t_nodes t) y) as [ly Ey]; [apply (link_lo i); exists l; auto|]. rewrite Ey in Hk1. inversion Hk1; subst. auto.
    + simpl in Hk1. inversion Hk1. auto.
Qed.

Hypothesis Hone : forall a a' b, link a b -> link a' b -> a = a'.
Hypothesis Htwo : forall a l b, nth_error (t_nodes t) a = Some l -> l_first l = Some b -> l_next l = Some b -> False.

Lemma below_linear a j : below a j -> forall b, below b j -> below a b \/ below b a.
Proof.
  induction 1 as [a|a j k H IH Hl]; intros b Hb; auto.
  inversion Hb as [x|x j' y Hb' Hl']; subst.
  - left. econstructor; eauto.
  - assert (j' = j) by (eapply Hone; eauto). subst. auto.
Qed.

Notation ids l := (map r_id (preorder_list l)).
Lemma reads_below o l : reads t (node_opt (t_nodes t) o) l -> forall j, In j (ids l) -> exists i, o = Some i /\ below i j.
Proof.
  intros H. remember (node_opt (t_nodes t) o) as m eqn:Em. revert o Em.
  induction H as [|m k kids rest H0 H1 IH1 H2 IH2]; intros o Em j Hj; [destruct Hj|].
  symmetry in Em. apply link_opt in Em as [-> E]. exists (fst m). split; auto.
  apply in_map_iff in Hj as (y & <- & Hy). apply in_pre_cons in Hy as [->|[Hy|Hy]].
  - constructor.
  - destruct (IH1 (l_first (snd m)) eq_refl (r_id y)) as (i & Ei & Hb); [apply in_map; auto|].
    eapply below_trans; [|exact Hb]. econstructor; [constructor|]. exists (snd m). auto.
  - destruct (IH2 (l_next (snd m)) eq_refl (r_id y)) as (i & Ei & Hb); [apply in_map; auto|].
    eapply below_trans; [|exact Hb]. econstructor; [constructor|]. exists (snd m). auto.
Qed.

Lemma reads_nodup o l : reads t (node_opt (t_nodes t) o) l -> NoDup (ids l).
Proof.
  intros H. remember (node_opt (t_nodes t) o) as m eqn:Em. revert o Em.
  induction H as [|m k kids rest H0 H1 IH1 H2 IH2]; intros o Em; [constructor|].
  symmetry in Em. apply link_opt in Em as [-> E].
  pose proof (reads_below _ _ H1) as B1. pose proof (reads_below _ _ H2) as B2.
  assert (L1 : forall i, l_first (snd m) = Some i -> link (fst m) i) by (intros i Hi; exists (snd m); auto).
  assert (L2 : forall i, l_next (snd m) = Some i -> link (fst m) i) by (intros i Hi; exists (snd m); auto).
  unfold preorder_list. cbn [flat_map preorder]. rewrite map_app. cbn [map app r_id].
  change (flat_map preorder kids) with (preorder_list kids). change (flat_map preorder rest) with (preorder_list rest).
  assert (N1 : ~ In (fst m) (ids kids)).
  { intros Hj. destruct (B1 _ Hj) as (i & Ei & Hb). apply L1, link_lo in Ei. apply below_lo in Hb. lra. }
  assert (N2 : ~ In (fst m) (ids rest)).
  { intros Hj. destruct (B2 _ Hj) as (i & Ei & Hb). apply L2, link_lo in Ei. apply below_lo in Hb. lra. }
  constructor; [intros Hj; apply in_app_or in Hj; tauto|].
  assert (Hd : forall j, In j (ids kids) -> ~ In j (ids rest)).
  { intros j Hj Hj'. destruct (B1 _ Hj) as (i & Ei & Hb). destruct (B2 _ Hj') as (i' & Ei' & Hb').
    assert (Hne : i <> i') by (intros ->; eapply Htwo; eauto).
    assert (X : forall a b, link (fst m) a -> link (fst m) b -> a <> b -> below a b -> False).
    { intros a b La Lb Hab H. inversion H as [|x j' y H' Hl]; subst; [tauto|].
      assert (j' = fst m) by (eapply Hone; eauto). subst j'. apply below_lo in H'. apply link_lo in La. lra. }
    destruct (below_linear _ _ Hb _ Hb'); eauto. }
  specialize (IH1 _ eq_refl). specialize (IH2 _ eq_refl). clear -IH1 IH2 Hd.
  induction (ids kids) as [|x xs IH]; simpl; auto. inversion IH1; subst. constructor; [|apply IH; auto; intros; apply Hd; simpl; auto].
  intros Hx. apply in_app_or in Hx as [Hx|Hx]; auto. apply (Hd x); simpl; auto.
Qed.

Lemma reads_closed o l : reads t (node_opt (t_nodes t) o) l -> forall q i, In q (ids l) -> link q i -> In i (ids l).
Proof.
  intros H. remember (node_opt (t_nodes t) o) as m eqn:Em. revert o Em.
  induction H as [|m k kids rest H0 H1 IH1 H2 IH2]; intros o Em q i Hq Hl; [destruct Hq|].
  symmetry in Em. apply link_opt in Em as [-> E].
  assert (Hd : forall o' r, reads t (node_opt (t_nodes t) o') r -> o' = Some i -> In i (ids r)).
  { intros o' r Hr ->. simpl in Hr. destruct (link_lo _ _ Hl) as [Hi _]. unfold node_at in Hr. destruct (nth_in (t_nodes t) i Hi) as [li Ei].
    rewrite Ei in Hr. inversion Hr; subst. simpl. auto. }
  apply in_map_iff in Hq as (y & <- & Hy). unfold preorder_list. cbn [flat_map preorder]. rewrite map_app. cbn [map app r_id].
  change (flat_map preorder kids) with (preorder_list kids). change (flat_map preorder rest) with (preorder_list rest).
  apply in_pre_cons in Hy as [->|[Hy|Hy]].
  - simpl in Hl. destruct Hl as (lm & Em & [Hf|Hn]); assert (lm = snd m) by congruence; subst lm; right; apply in_app_iff.
    + left. eapply Hd; [exact H1|auto].
    + right. eapply Hd; [exact H2|auto].
  - right. apply in_app_iff. left. apply (IH1 (l_first (snd m)) eq_refl (r_id y)); auto. apply in_map; auto.
  - right. apply in_app_iff. right. apply (IH2 (l_next (snd m)) eq_refl (r_id y)); auto. apply in_map; auto.
Qed.

Hypothesis Hroot : forall i, i < n -> t_first t = Some i \/ exists q, q < n /\ link q i.

Lemma reads_all l : reads t (tree_first t) l -> forall k i, i < n -> ups (t_nodes t) lo i <= k -> In i (ids l).
Proof.
  intros H. induction k as [|k IH]; intros i Hi Hk.
  - exfalso. destruct (nth_in (t_nodes t) i Hi) as [li Ei]. pose proof (ups_pos _ lo _ _ Ei). lia.
  - destruct (Hroot i Hi) as [E|(q & Hq & Hl)].
    + unfold tree_first in H. rewrite E in H. simpl in H. unfold node_at in H. destruct (nth_in (t_nodes t) i Hi) as [li Ei]. rewrite Ei in H.
      inversion H; subst. simpl. auto.
    + eapply reads_closed; [exact H| |exact Hl]. apply IH; auto.
      assert (ups (t_nodes t) lo q < ups (t_nodes t) lo i); [|lia]. destruct (link_lo _ _ Hl) as [_ Hlo]. unfold ups.
      apply count_lt with (k := (- lo i)%Q); try lra. apply in_map. apply in_los. auto.
Qed.
End Table.

(** ** For every history *)
Theorem placed_reads T (w : world T) : wplaced w -> let t := b_tree (w_builder w) in
  exists l, reads t (tree_first t) l /\
    forall l', reads t (tree_first t) l' -> Permutation (map r_id (preorder_list l')) (seq 0 (tree_len t)).
Proof.
  intros Hw t. destruct Hw as [[Hok _] HP].
  destruct Hok as (lo & hi & cap & stk & HB & _). pose proof (bi_table _ _ _ _ _ HB) as HT.
  destruct HP as [P1 P2 P3 _ _ _]. pose proof (bi_first _ _ _ _ _ HB) as BF. change (b_tree (w_builder w)) with t in HT, P1, P2, P3, BF.
  assert (Hlf : forall a l b, nth_error (t_nodes t) a = Some l -> l_first l = Some b -> exists lb, nth_error (t_nodes t) b = Some lb /\ l_prev lb = None /\ l_parent lb = Some a).
  { intros a l b E H. apply P3. simpl. rewrite E. auto. }
  assert (Hln : forall a l b, nth_error (t_nodes t) a = Some l -> l_next l = Some b -> exists lb, nth_error (t_nodes t) b = Some lb /\ l_prev lb = Some a).
  { intros a l b E H. apply (li_next _ _ _ _ _ _ (HT _ _ E) b H). }
  assert (Hone : forall a a' b, link t a b -> link t a' b -> a = a').
  { intros a a' b (l & E & [H|H]) (l' & E' & [H'|H']).
    - destruct (Hlf _ _ _ E H) as (lb & Eb & _ & A). destruct (Hlf _ _ _ E' H') as (lb' & Eb' & _ & A'). congruence.
    - destruct (Hlf _ _ _ E H) as (lb & Eb & A & _). destruct (Hln _ _ _ E' H') as (lb' & Eb' & A'). congruence.
    - destruct (Hln _ _ _ E H) as (lb & Eb & A). destruct (Hlf _ _ _ E' H') as (lb' & Eb' & A' & _). congruence.
    - destruct (Hln _ _ _ E H) as (lb & Eb & A). destruct (Hln _ _ _ E' H') as (lb' & Eb' & A'). congruence. }
  assert (Htwo : forall a l b, nth_error (t_nodes t) a = Some l -> l_first l = Some b -> l_next l = Some b -> False).
  { intros a l b E H H'. destruct (Hlf _ _ _ E H) as (lb & Eb & A & _). destruct (Hln _ _ _ E H') as (lb' & Eb' & A'). congruence. }
  assert (Hroot : forall i, i < length (t_nodes t) -> t_first t = Some i \/ exists q, q < length (t_nodes t) /\ link t q i).
  { intros i Hi. destruct (nth_in (t_nodes t) i Hi) as [l E]. destruct (l_prev l) as [q|] eqn:Eq.
    - right. destruct (li_prev _ _ _ _ _ _ (HT _ _ E) q Eq) as (_ & _ & _ & lq & Elq & Hn). exists q. split; [eapply nth_lt; eauto|]. exists lq. auto.
    - pose proof (P2 _ _ E Eq) as G. destruct (l_parent l) as [p|] eqn:Ep; [|auto]. right. simpl in G.
      destruct (nth_error (t_nodes t) p) as [lp|] eqn:Elp; [|discriminate]. exists p. split; [eapply nth_lt; eauto|]. exists lp. auto. }
  destruct (t_first t) as [r|] eqn:Er.
  - pose proof (BF r eq_refl) as Hr.
    destruct (reads_exist t lo hi cap HT _ r Hr (le_n _)) as (l & Hl).
    assert (Hl' : reads t (tree_first t) l) by (unfold tree_first; rewrite Er; exact Hl). exists l. split; auto.
    intros l' Hl2. apply NoDup_Permutation.
    + apply (reads_nodup t lo hi cap HT Hone Htwo (t_first t)); auto.
    + apply seq_NoDup.
    + intros j. rewrite in_seq. split.
      * intros Hj. destruct (reads_below t (t_first t) l' Hl2 j Hj) as (i & Ei & Hb).
        assert (i = r) by congruence. subst i. split; [lia|]. simpl. inversion Hb; subst; auto. apply (link_lo t lo hi cap HT) in H0. tauto.
      * intros [_ Hj]. simpl in Hj. apply (reads_all t lo hi cap HT) with (k := ups (t_nodes t) lo j); auto.
        intros i Hi. rewrite Er. apply Hroot; auto.
  - exists []. split; [unfold tree_first; rewrite Er; constructor|]. intros l' Hl'.
    assert (E : tree_len t = 0).
    { destruct (Nat.eq_dec (tree_len t) 0) as [E|E]; auto. exfalso. clear Hl'.
      assert (G : forall k i, i < length (t_nodes t) -> ups (t_nodes t) lo i <= k -> False).
      { induction k as [|k IH]; intros i Hi Hk.
        - destruct (nth_in (t_nodes t) i Hi) as [li Ei]. pose proof (ups_pos _ lo _ _ Ei). lia.
        - destruct (Hroot i Hi) as [?|(q & Hq & Hl)]; [discriminate|]. apply (IH q Hq).
          assert (ups (t_nodes t) lo q < ups (t_nodes t) lo i); [|lia]. destruct (link_lo t lo hi cap HT _ _ Hl) as [_ Hlo]. unfold ups.
          apply count_lt with (k := (- lo i)%Q); try lra. apply in_map. apply in_los. auto. }
      apply (G _ 0 ltac:(unfold tree_len in E; lia) (le_n _)). }
    rewrite E. unfold tree_first in Hl'. rewrite Er in Hl'. inversion Hl'. constructor.
Qed.

Theorem history_reads T F (ops : list (op T)) : vec_flavor F -> let t := tree_so_far F ops in
  exists l, reads t (tree_first t) l /\
    forall l', reads t (tree_first t) l' -> Permutation (map r_id (preorder_list l')) (seq 0 (tree_len t)).
Proof. intros HF. apply (placed_reads T (run_world F ops)). apply (run_placed F HF ops). Qed.
