(** Property theorems: find_preceding (C27). *)
From Coq Require Import Lia.
From Verif Require Import Base Pointer Index Tree Builder Hist Node Iter Query Spec SpecFind Rep Refine TreeRep
  Enum WalkThms Nav Demo AllHist AllWalk PropsTree PropsSafe.

Section Find.
Context {T St : Type}.
Variable t : tree T.
Variable l : list (rose T).
Hypothesis Hrep : tree_rep t l.
Variable p : St -> node T -> St * bool.
Variable q : St -> rose T -> St * bool.
Hypothesis Hpq : same_predicate p q.
Notation nodes := (t_nodes t).

Lemma get_in i n : tree_get t i = Some n -> exists x, In x (preorder_list l) /\ r_id x = i /\ fst n = i.
Proof.
  unfold tree_get, node_at. destruct (nth_error nodes i) eqn:E; [|discriminate]. intros G; injection G as <-.
  destruct (preorder_of_id t l i Hrep) as (x & Hx & Ei). { apply nth_error_Some. congruence. } eauto.
Qed.

Lemma opt_get o n : node_opt nodes o = Some n -> tree_get t (fst n) = Some n.
Proof.
  destruct o as [i|]; simpl; [|discriminate]. unfold node_at, tree_get, node_at. destruct (nth_error nodes i) eqn:E; [|discriminate].
  intros G; injection G as <-. simpl. rewrite E. auto.
Qed.

Lemma prev_of p0 s1 x s2 n z : In (p0, s1 ++ x :: s2) (sibling_lists l) -> tree_get t (r_id x) = Some n ->
  (prev_sibling l x z <-> last_error s1 = Some z).
Proof.
  intros Hs E. destruct (nav_links t l Hrep _ _ _ _ _ Hs E) as (_ & _ & A & _). split.
  - intros (p' & s1' & s2' & Hs').
    assert (Hs2 : In (p', (s1' ++ [z]) ++ x :: s2') (sibling_lists l)) by (rewrite <- app_assoc; auto).
    destruct (nav_links t l Hrep _ _ _ _ _ Hs2 E) as (_ & _ & B & _). rewrite last_error_snoc in B.
    unfold answers in A, B. rewrite A in B. simpl in B. destruct (last_error s1) as [y|] eqn:Ey; [|discriminate]. simpl in B.
    f_equal. apply (preorder_id_inj t l); auto.
    + apply (sibling_list_in _ _ _ _ Hs). apply last_error_in in Ey. apply in_app_iff; auto.
    + apply (sibling_list_in _ _ _ _ Hs'). apply in_app_iff. simpl. auto.
    + unfold rview in B. congruence.
  - intros Ey. destruct s1 as [|y s1 _] using rev_ind; [discriminate|]. rewrite last_error_snoc in Ey. injection Ey as ->.
    exists p0, s1, s2. rewrite <- app_assoc in Hs. auto.
Qed.

Lemma last_nil (s1 : list (rose T)) : last_error s1 = None -> s1 = [].
Proof. destruct s1 as [|y s1 _] using rev_ind; auto. rewrite last_error_snoc. discriminate. Qed.

Lemma find_up_spec : forall x chain, ancestry l x chain -> forall fuel st st' n o, tree_get t (r_id x) = Some n ->
  find_up fuel nodes p st n = Ok (st', o) ->
  exists r, seek_up l q st chain st' r /\ answers o r /\
    match r with None => o = None | Some z => In z (preorder_list l) /\ exists m, o = Some m /\ tree_get t (r_id z) = Some m end.
Proof.
  induction 1 as [x Hx|x y chain Hy IH Hx]; intros fuel st st' n o E Ef; (destruct fuel as [|fuel]; [discriminate|]); simpl in Ef.
  - destruct (in_split _ _ Hx) as (s1 & s2 & El).
    assert (Hs : In (None, s1 ++ x :: s2) (sibling_lists l)) by (left; congruence).
    destruct (nav_links t l Hrep _ _ _ _ _ Hs E) as (_ & A1 & A2 & _).
    assert (Ep : node_parent nodes n = None) by (unfold answers in A1; destruct (node_parent nodes n); auto; discriminate).
    rewrite Ep in Ef. unfold answers in A2. destruct (node_prev nodes n) as [m|] eqn:Em.
    + destruct (last_error s1) as [z|] eqn:Ez; [|discriminate]. simpl in A2. assert (V : view m = rview z) by congruence. clear A2.
      rewrite (Hpq _ _ _ V) in Ef. destruct (q st z) as [st1 [|]] eqn:Eq; injection Ef as <- <-.
      * exists (Some z). split; [apply up_found; auto; apply (prev_of _ _ _ _ _ z Hs E); auto|]. split; [simpl; unfold answers; simpl; congruence|].
        split; [apply (sibling_list_in _ _ _ _ Hs); apply last_error_in in Ez; apply in_app_iff; auto|]. exists m. split; auto.
        assert (Ei : fst m = r_id z) by (unfold view, rview in V; congruence). rewrite <- Ei. eapply opt_get; eauto.
      * exists None. split; [|split; auto; reflexivity]. eapply up_skip; [apply (prev_of _ _ _ _ _ z Hs E); auto|eauto|constructor].
    + injection Ef as <- <-. exists None. split; [|split; auto; reflexivity]. destruct (last_error s1) as [z|] eqn:Ez; [discriminate|].
      apply up_first; [|constructor]. intros z' Hz'. apply (prev_of _ _ _ _ _ z' Hs E) in Hz'. congruence.
  - destruct (in_split _ _ Hx) as (s1 & s2 & El). pose proof (ancestry_in l _ _ Hy) as Hyl.
    assert (Hs : In (Some y, s1 ++ x :: s2) (sibling_lists l)) by (rewrite <- El; apply kids_sibling_list; auto).
    destruct (nav_links t l Hrep _ _ _ _ _ Hs E) as (_ & A1 & A2 & _).
    destruct (node_parent nodes n) as [my|] eqn:Ep; [|discriminate]. unfold answers in A1. simpl in A1.
    assert (Ey : tree_get t (r_id y) = Some my).
    { assert (Ei : fst my = r_id y) by (unfold view, rview in A1; congruence). rewrite <- Ei. eapply opt_get; eauto. }
    unfold answers in A2. destruct (node_prev nodes n) as [m|] eqn:Em.
    + destruct (last_error s1) as [z|] eqn:Ez; [|discriminate]. simpl in A2. assert (V : view m = rview z) by congruence. clear A2.
      rewrite (Hpq _ _ _ V) in Ef. destruct (q st z) as [st1 [|]] eqn:Eq.
      * injection Ef as <- <-.
        exists (Some z). split; [apply up_found; auto; apply (prev_of _ _ _ _ _ z Hs E); auto|]. split; [simpl; unfold answers; simpl; congruence|].
        split; [apply (sibling_list_in _ _ _ _ Hs); apply last_error_in in Ez; apply in_app_iff; auto|]. exists m. split; auto.
        assert (Ei : fst m = r_id z) by (unfold view, rview in V; congruence). rewrite <- Ei. eapply opt_get; eauto.
      * destruct (IH fuel st1 st' my o Ey Ef) as (r & H1 & H2). exists r. split; auto.
        eapply up_skip; eauto. apply (prev_of _ _ _ _ _ z Hs E); auto.
    + destruct (last_error s1) as [z|] eqn:Ez; [discriminate|]. destruct (IH fuel st st' my o Ey Ef) as (r & H1 & H2). exists r. split; auto.
      apply up_first; auto. intros z' Hz'. apply (prev_of _ _ _ _ _ z' Hs E) in Hz'. congruence.
Qed.

Lemma find_down_spec (Hset : forall x n, In x (preorder_list l) -> tree_get t (r_id x) = Some n -> answers (node_last nodes n) (last_error (r_kids x))) :
  forall fuel st st' z n r, In z (preorder_list l) -> tree_get t (r_id z) = Some n -> find_down fuel nodes p st n = Ok (st', r) ->
  exists y, seek_down q st z st' y /\ view r = rview y.
Proof.
  induction fuel as [|fuel IH]; intros st st' z n r Hz E Ef; simpl in Ef; [discriminate|].
  pose proof (Hset z n Hz E) as A. unfold answers in A.
  assert (V : view n = rview z).
  { destruct (in_sibling_lists _ _ Hz) as (p0 & s1 & s2 & Hs). apply (nav_links t l Hrep _ _ _ _ _ Hs E). }
  destruct (node_last nodes n) as [m|] eqn:Em.
  - destruct (last_error (r_kids z)) as [y|] eqn:Ey; [|discriminate]. simpl in A. assert (Vm : view m = rview y) by congruence.
    rewrite (Hpq _ _ _ Vm) in Ef. destruct (q st y) as [st1 [|]] eqn:Eq.
    + destruct (IH st1 st' y m r) as (r' & H1 & H2); auto.
      * eapply preorder_list_kid; eauto. apply last_error_in; auto.
      * assert (Ei : fst m = r_id y) by (unfold view, rview in Vm; congruence). rewrite <- Ei. eapply opt_get; eauto.
      * exists r'. split; auto. eapply down_go; eauto.
    + injection Ef as <- <-. exists z. split; auto. eapply down_stop; eauto.
  - injection Ef as <- <-. exists z. split; auto. apply down_leaf. apply last_nil. destruct (last_error (r_kids z)); [discriminate|auto].
Qed.
End Find.

(** The way up, always: [find_preceding] returns; [None] exactly when no ancestor-or-self has a preceding sibling
    satisfying the predicate. *)
Theorem C27_up : forall T St F (ops : list (op T)) t l x n chain p q (st : St),
  finished F ops t l -> ancestry l x chain -> tree_get t (r_id x) = Some n -> same_predicate p q ->
  exists o r st1 st2, find_preceding_mut (t_nodes t) p st n = Ok (st2, o) /\ seek_up l q st chain st1 r /\
    (o = None <-> r = None) /\ (o = None -> st2 = st1).
Proof.
  intros T St F ops t l x n chain p q st H Hc E Hpq. pose proof (fin_rep F ops t l H) as Hr.
  destruct (C38_searches_end T F ops t (r_id x) n) as (Hf & _); auto.
  { apply H. } { apply builds_so_far. apply H. }
  destruct (Hf St p st) as (st2 & o & Eo). clear Hf.
  exists o. unfold find_preceding_mut in Eo. destruct (find_up (S (length (t_nodes t))) (t_nodes t) p st n) as [[st1 o']| |] eqn:Ef; try discriminate.
  destruct (find_up_spec t l Hr p q Hpq x chain Hc _ _ _ n o' E Ef) as (r & H1 & H2 & H3). exists r, st1, st2. split.
  { unfold find_preceding_mut. rewrite Ef. auto. }
  split; auto. destruct r as [z|].
  - destruct H3 as (_ & m & -> & _). destruct (find_down _ _ _ _ m) as [[]| |]; try discriminate. injection Eo as <- <-. split; [split; discriminate|discriminate].
  - subst o'. injection Eo as <- <-. tauto.
Qed.
Print Assumptions C27_up.

(** Without state: [None] exactly when no preceding sibling of the node or an ancestor satisfies it. *)
Theorem C27_none : forall T F (ops : list (op T)) t l x n chain p q,
  finished F ops t l -> ancestry l x chain -> tree_get t (r_id x) = Some n ->
  (forall n x, view n = rview x -> p n = q x) ->
  (find_preceding (t_nodes t) p n = Ok None <-> forall y z, In y chain -> prev_sibling l y z -> q z = false).
Proof.
  intros T F ops t l x n chain p q H Hc E Hpq.
  assert (Hpq' : same_predicate (stateless p) (stateless q)).
  { intros s m y V. unfold stateless. rewrite (Hpq m y V). auto. }
  destruct (C27_up T unit F ops t l x n chain (stateless p) (stateless q) tt H Hc E Hpq') as (o & r & st1 & st2 & Eo & Hu & Hn & _).
  unfold find_preceding. unfold stateless at 1 in Eo. rewrite Eo.
  assert (U : forall y z z', In y chain -> prev_sibling l y z -> prev_sibling l y z' -> z = z').
  { intros y z z' Hy H1 H2. pose proof (fin_rep F ops t l H) as Hr. destruct H1 as (p0 & s1 & s2 & Hs).
    assert (Hs2 : In (p0, (s1 ++ [z]) ++ y :: s2) (sibling_lists l)) by (rewrite <- app_assoc; auto).
    assert (Hyl : In y (preorder_list l)) by (apply (sibling_list_in _ _ _ _ Hs2); apply in_app_iff; simpl; auto).
    destruct (proj1 (C08_all_nodes T F ops t l H) y Hyl) as (m & Em & _).
    apply (prev_of t l Hr _ _ _ _ _ z' Hs2 Em) in H2. rewrite last_error_snoc in H2. congruence. }
  assert (G : r = None <-> forall y z, In y chain -> prev_sibling l y z -> q z = false).
  { clear -Hu U. induction Hu as [|s s' y z chain Hp Hq|s s1 s' y z chain r Hp Hq Hu IH|s s' y chain r Hp Hu IH].
    - simpl. tauto.
    - split; [discriminate|]. intros G. injection Hq; intros Eq _. rewrite (G y z) in Eq; simpl; auto; discriminate.
    - rewrite IH by (intros; eapply U; simpl; eauto). split; intros G; [|intros; eapply G; simpl; eauto].
      intros y' z' [<-|Hy] Hz'; [|eauto]. rewrite (U y z' z) by (simpl; auto). injection Hq; auto.
    - rewrite IH by (intros; eapply U; simpl; eauto). split; intros G; [intros y' z [<-|Hy] Hz; [exfalso; eapply Hp; eauto|eauto]|intros; eapply G; simpl; eauto]. }
  rewrite <- G. split; [intros E2; injection E2 as ->; tauto|]. intros Er. f_equal. tauto.
Qed.
Print Assumptions C27_none.

(** The whole search, when no last() involved is stale: the answer, and the calls of the predicate. *)
Theorem C27_find_partial : forall T St F (ops : list (op T)) t l x n chain p q (st : St),
  finished F ops t l -> ancestry l x chain -> tree_get t (r_id x) = Some n -> same_predicate p q ->
  (forall y, In y (preorder_list l) -> settled (Some y) (r_kids y)) ->
  exists o r st1 st2, find_preceding_mut (t_nodes t) p st n = Ok (st2, o) /\ seek_up l q st chain st1 r /\
    match r with
    | None => o = None /\ st2 = st1
    | Some z => exists y, seek_down q st1 z st2 y /\ answers o (Some y)
    end.
Proof.
  intros T St F ops t l x n chain p q st H Hc E Hpq Hset. pose proof (fin_rep F ops t l H) as Hr.
  destruct (C38_searches_end T F ops t (r_id x) n) as (Hf & _); auto.
  { apply H. } { apply builds_so_far. apply H. }
  destruct (Hf St p st) as (st2 & o & Eo). clear Hf.
  exists o. pose proof Eo as Eo'. unfold find_preceding_mut in Eo. destruct (find_up (S (length (t_nodes t))) (t_nodes t) p st n) as [[st1 o']| |] eqn:Ef; try discriminate.
  destruct (find_up_spec t l Hr p q Hpq x chain Hc _ _ _ n o' E Ef) as (r & H1 & H2 & H3). exists r, st1, st2. split; [auto|]. split; [auto|].
  destruct r as [z|].
  - destruct H3 as (Hz & m & -> & Em). destruct (find_down _ _ _ _ m) as [[st3 r]| |] eqn:Ed; try discriminate. injection Eo as <- <-.
    destruct (find_down_spec t l Hr p q Hpq) with (fuel := S (length (t_nodes t))) (st := st1) (st' := st3) (z := z) (n := m) (r := r) as (y & Y1 & Y2); auto.
    { intros y ny Hy Ey. apply (C09_last_partial T F ops t l H); auto. }
    exists y. split; auto. unfold answers. simpl. congruence.
  - subst o'. injection Eo as <- <-. auto.
Qed.
Print Assumptions C27_find_partial.

(** In the demo document: from the token 4 after the root, backwards over nodes with children, the
    predicate keeping a list of the values it was asked about. *)
Example C27_inhabited :
  find_preceding_mut (t_nodes demo_tree) (fun log n => (log ++ [node_value n], has_children n)) [] (6, Links 4 (Span 5 9) None (Some 0) None None None) =
    Ok ([10; 3], Some (0, Links 10 (Span 0 5) None None (Some 6) (Some 1) (Some 5))) /\
  ancestry demo_doc (Nd 6 KLeaf 4 (Span 5 9) []) [Nd 6 KLeaf 4 (Span 5 9) []] /\
  same_predicate (fun log (n : node nat) => (log ++ [node_value n], has_children n)) (fun log x => (log ++ [r_data x], has_kids x)).
Proof.
  split; [vm_compute; reflexivity|]. split; [apply anc_root; simpl; auto|].
  intros s n x E. unfold view, rview in E. injection E as _ -> _ ->. auto.
Qed.

(** The way down is wrong after a wrapping close_at: the search skips the wrapper. *)
Theorem C27_down_refuted : exists (ops : list (op nat)) t l x n p q,
  finished flavor_default ops t l /\ ancestry l x [x] /\ tree_get t (r_id x) = Some n /\
  same_predicate p q /\
  exists z y o, seek_up l q tt [x] tt (Some z) /\ seek_down q tt z tt y /\ find_preceding_mut (t_nodes t) p tt n = Ok (tt, o) /\ ~ answers o (Some y).
Proof.
  set (ops := [OOpen 0; OCheckpoint; OToken 1 1; OToken 2 1; OCloseAt 0 3; OClose; OToken 4 1] : list (op nat)).
  set (t := match build (w_builder (run_world flavor_default ops)) with Ok t => t | _ => tree_new end).
  set (y := Nd 3 KWrap 3 (Span 0 2) [Nd 1 KLeaf 1 (Span 0 1) []; Nd 2 KLeaf 2 (Span 1 2) []]).
  set (z := Nd 0 KOpen 0 (Span 0 2) [y]).
  set (x := Nd 4 KLeaf 4 (Span 2 3) [] : rose nat).
  exists ops, t, [z; x], x, (4, Links 4 (Span 2 3) None (Some 0) None None None), (stateless (fun n => has_children n)), (stateless has_kids).
  split; [|split; [|split; [|split]]].
  - split; [split; auto|]. split; [|split; vm_compute; reflexivity].
    destruct (a_run flavor_default doc_new ops) as [[a rs]|] eqn:E; [|vm_compute in E; discriminate].
    exists a, rs. split; auto. vm_compute in E. injection E as <- <-. vm_compute. auto.
  - apply anc_root. simpl; auto.
  - vm_compute. reflexivity.
  - intros [] n x' E. unfold view, rview in E. unfold stateless. congruence.
  - exists z, y. eexists. split; [|split; [|split; [vm_compute; reflexivity|]]].
    + apply up_found; [|reflexivity]. exists None, [], []. left. reflexivity.
    + apply (down_go (stateless has_kids) tt tt tt z y y); try reflexivity. apply (down_stop _ tt tt y (Nd 2 KLeaf 2 (Span 1 2) [])); reflexivity.
    + vm_compute. discriminate.
Qed.
Print Assumptions C27_down_refuted.
