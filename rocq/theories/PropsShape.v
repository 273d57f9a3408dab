(** Property theorems: what every history of calls does (C65), and that no call disturbs the nodes that are
    there (C66). *)
From Coq Require Import Lia Permutation.
From Verif Require Import Base Pointer Index Tree Builder Hist Node Iter Query Edit Spec SpecSpan SpecMap SpecEdit SpecReads SpecShape Rep Marks Refine TreeRep
  WalkThms AllHist StepFacts AllPlaced PropsTree PropsSafe Modify Demo AllReads PropsMisuse Settle Shape.
Open Scope nat_scope.

Definition shape_of {T} (F : flavor) (ops : list (op T)) : shape T := fst (h_run F shape_new ops).

Lemma history_sim T F (ops : list (op T)) : vec_flavor F ->
  run_outs F ops = snd (h_run F shape_new ops) /\ sim (run_world F ops) (shape_of F ops) /\ wplaced (run_world F ops).
Proof.
  intros HF. pose proof (run_sim F HF ops world_new shape_new) as G. specialize (G (conj (wok_new) placed_new) sim_new).
  unfold run_outs, run_world, shape_of. destruct (run F world_new ops) as [w rs]. destruct (h_run F shape_new ops) as [s rs']. exact G.
Qed.

(** ** C65 *)

(** What each call returns, and what the tree is after all of them: the document that [first] and
    [next] show, the parent that each node names, the number of nodes, the cursor, the span of the tree, and
    whether [build] succeeds. *)
Theorem C65_history : forall T F (ops : list (op T)), vec_flavor F ->
  let h := fst (h_run F shape_new ops) in
  let b := w_builder (run_world F ops) in
  let t := b_tree b in
  run_outs F ops = snd (h_run F shape_new ops) /\
  reads t (tree_first t) (h_forest h) /\
  tree_len t = length (h_parents h) /\
  (forall i n, tree_get t i = Some n -> Some (option_map fst (node_parent (t_nodes t) n)) = nth_error (h_parents h) i) /\
  cursor b = h_cursor h /\ t_span t = h_span h /\
  build b = match h_open h with [] => Ok t | _ :: _ => Err BuildError end.
Proof.
  intros T F ops HF h b t. destruct (history_sim T F ops HF) as (Ho & [HS _ _ _] & Hw). unfold shape_of in HS. fold h b in HS. fold b.
  split; auto. split; [apply (sees_reads T t _ _ (cs_sees _ _ HS))|]. split; [symmetry; apply (cs_len _ _ HS)|]. split; [|split; [apply (cs_cursor _ _ HS)|split; [apply (cs_span _ _ HS)|]]].
  - intros i n Hn. unfold tree_get, node_at in Hn. destruct (nth_error (t_nodes t) i) as [l|] eqn:El; [|discriminate]. injection Hn as <-.
    rewrite <- (cs_parents _ _ HS), nth_error_map. fold t. rewrite El. simpl. f_equal. unfold node_parent. simpl.
    destruct (l_parent l) as [p|] eqn:Ep; auto. simpl. destruct Hw as [[(lo & hi & cap & stk & HB & _) _] _].
    destruct (li_parent _ _ _ _ _ _ (bi_table _ _ _ _ _ HB _ _ El) p Ep) as (Hp & _). destruct (nth_in _ _ Hp) as [lp E]. unfold node_at. fold b t in E. rewrite E. auto.
  - unfold build. rewrite (cs_parent _ _ HS). destruct (h_open h); auto.
Qed.
Print Assumptions C65_history.

(** [prev] is the way back of [next]. *)
Theorem C65_prev : forall T F (ops : list (op T)) l, vec_flavor F -> let t := tree_so_far F ops in
  reads t (tree_first t) l ->
  forall p s1 x s2 n, In (p, s1 ++ x :: s2) (sibling_lists l) -> tree_get t (r_id x) = Some n ->
  option_map fst (node_prev (t_nodes t) n) = option_map r_id (last_error s1).
Proof.
  intros T F ops l HF t Hl p s1 x s2 n Hs Hn.
  destruct (history_sim T F ops HF) as (_ & _ & [[(lo & hi & cap & stk & HB & _) _] HP]).
  pose proof (bi_table _ _ _ _ _ HB) as HT. change (b_tree (w_builder (run_world F ops))) with t in HT.
  assert (SE : forall o m, reads t (node_opt (t_nodes t) o) m -> (o = None \/ exists i l, o = Some i /\ nth_error (t_nodes t) i = Some l) -> sees (look (t_nodes t)) o m).
  { intros o m H. remember (node_opt (t_nodes t) o) as no eqn:En. revert o En.
    assert (R : forall i li y, nth_error (t_nodes t) i = Some li -> (l_first li = Some y \/ l_next li = Some y) -> exists ly, nth_error (t_nodes t) y = Some ly).
    { intros i li y E [H'|H'].
      - destruct (li_first _ _ _ _ _ _ (HT _ _ E) y H') as (A & _). apply nth_in; auto.
      - destruct (li_next _ _ _ _ _ _ (HT _ _ E) y H') as (_ & _ & _ & ly & A & _). eauto. }
    induction H as [|n0 k kids rest H0 H1 IH1 H2 IH2]; intros o En Ho.
    - destruct Ho as [->|(i & li & -> & Ei)]; [constructor|]. simpl in En. unfold node_at in En. rewrite Ei in En. discriminate.
    - destruct Ho as [->|(i & li & -> & Ei)]; [discriminate|]. simpl in En. unfold node_at in En. rewrite Ei in En. injection En as ->. simpl.
      eapply se_node; [unfold look; rewrite Ei; reflexivity| |].
      + apply IH1; auto. destruct (l_first li) as [y|] eqn:Ey; auto. right. destruct (R _ _ y Ei (or_introl Ey)). eauto.
      + apply IH2; auto. destruct (l_next li) as [y|] eqn:Ey; auto. right. destruct (R _ _ y Ei (or_intror Ey)). eauto. }
  assert (S0 : sees (look (t_nodes t)) (t_first t) l).
  { apply SE; auto. destruct (t_first t) as [i|] eqn:Ei; auto. right. assert (Hi : i < tree_len t) by (apply (bi_first _ _ _ _ _ HB); auto).
    destruct (nth_in _ _ Hi) as [li E]. eauto. }
  assert (Hf : match s1 ++ x :: s2 with [] => True | y :: _ => level_first t (option_map r_id p) = Some (r_id y) end).
  { destruct Hs as [E|Hs].
    - injection E as <- E. rewrite <- E. clear -S0. destruct l as [|y r]; auto. simpl. inversion S0 as [|? ? ? ? ? ? ? ? ? ? ? Ef]. auto.
    - apply in_map_iff in Hs as (q & E & Hq). injection E as <- E.
      assert (G : forall o m, sees (look (t_nodes t)) o m -> forall q, In q (preorder_list m) -> exists f nx, look (t_nodes t) (r_id q) = Some (r_data q, r_span q, f, nx) /\ sees (look (t_nodes t)) f (r_kids q)).
      { clear. induction 1 as [|i d sp f nx k kids rest E H1 IH1 H2 IH2]; intros q Hq; [destruct Hq|]. apply in_pre_cons in Hq as [->|[Hq|Hq]]; eauto. }
      destruct (G _ _ S0 q Hq) as (f & nx & A & B). rewrite E in B. simpl. unfold look in A. destruct (nth_error (t_nodes t) (r_id q)) as [lq|]; [|discriminate]. simpl in A. injection A as _ _ <- _.
      destruct (s1 ++ x :: s2) as [|y r]; auto. inversion B; subst. auto. }
  unfold tree_get, node_at in Hn. destruct (nth_error (t_nodes t) (r_id x)) as [lx|] eqn:Ex; [|discriminate]. injection Hn as <-. unfold node_prev. simpl.
  destruct (sees_siblings _ _ _ S0 _ _ Hs) as (o & So).
  destruct s1 as [|y0 s1] using rev_ind.
  - simpl in Hf |- *. destruct (pl_first _ HP _ _ Hf) as (lx' & Ex' & Hprev & _). change (b_tree (w_builder (run_world F ops))) with t in Ex'.
    assert (lx' = lx) by congruence. subst lx'. rewrite Hprev. auto.
  - clear IHs1. assert (last_error (s1 ++ [y0]) = Some y0) as ->.
    { clear. induction s1 as [|a [|b s1] IH]; auto. }
    rewrite <- app_assoc in So. simpl in So. apply sees_tail in So. destruct y0 as [i k d sp kids]. simpl in So. inversion So as [|i' d' sp' f nx k' kids' rest Ei H1 H2]; subst.
    unfold look in Ei. simpl in Ei. destruct (nth_error (t_nodes t) i) as [ly|] eqn:Ey; [|discriminate]. simpl in Ei. injection Ei as _ _ _ Enx.
    assert (nx = Some (r_id x)) as -> by (inversion H2; subst; auto).
    destruct (li_next _ _ _ _ _ _ (HT _ _ Ey) _ Enx) as (_ & _ & _ & lx' & Ex' & Hp). assert (lx' = lx) by congruence. subst lx'. rewrite Hp. simpl. unfold node_at. rewrite Ey. auto.
Qed.
Print Assumptions C65_prev.

(** For checkpoints used as intended this is the document of [Spec]. *)
Theorem C65_agrees : forall T F (ops : list (op T)) t l, finished F ops t l ->
  same_reading (h_forest (fst (h_run F shape_new ops))) l.
Proof.
  intros T F ops t l Hf. pose proof (fin_rep F ops t l Hf) as Hr. destruct Hf as (HF & _ & Hb & _).
  destruct (C65_history T F ops HF) as (_ & H & _). pose proof (builds_so_far _ _ _ _ Hb) as Et. unfold tree_so_far in Et. rewrite <- Et in H.
  eapply C64_one; [exact H|]. apply tree_rep_reads. exact Hr.
Qed.
Print Assumptions C65_agrees.

(** ** C66 *)

(** Later calls add nodes to the tree and change spans; they do not move, remove or re-order the nodes that are
    there, nor change their values or what is inside what.  (Identifiers are given out in order, so the nodes
    that were there are those below [tree_len] of the tree before.) *)
Definition old {T} (n : nat) (l : list (rose T)) : list nat := filter (fun i => i <? n) (map r_id (preorder_list l)).
Definition extends {T} (O : list nat) (n : nat) (l l' : list (rose T)) : Prop :=
  old n l' = map r_id (preorder_list l) /\
  forall x, In x (preorder_list l) -> exists x', In x' (preorder_list l') /\ r_id x' = r_id x /\ r_data x' = r_data x /\
    old n (r_kids x') = map r_id (preorder_list (r_kids x)) /\ (In (r_id x) O \/ r_span x' = r_span x).

Section Grow.
Context {T : Type}.
Implicit Types (l : list (rose T)) (x y : rose T).
Definition small n l : Prop := forall i, In i (ids l) -> i < n.

Lemma ids_app l l' : ids (l ++ l') = ids l ++ ids l'.
Proof. unfold preorder_list. rewrite flat_map_app, map_app. auto. Qed.
Lemma old_app n l l' : old n (l ++ l') = old n l ++ old n l'.
Proof. unfold old. rewrite ids_app. apply filter_app. Qed.
Lemma old_small n l : small n l -> old n l = ids l.
Proof.
  unfold old, small. induction (ids l) as [|i v IH]; simpl; auto. intros H. destruct (Nat.ltb_spec i n) as [Hi|Hi]; [|specialize (H i (or_introl eq_refl)); lia].
  f_equal. auto.
Qed.
Lemma small_cons n i k d sp kids l : small n (Nd i k d sp kids :: l) <-> i < n /\ small n kids /\ small n l.
Proof.
  unfold small. rewrite ids_cons. split.
  - intros H. split; [apply H; simpl; auto|]. split; intros j Hj; apply H; simpl; rewrite in_app_iff; auto.
  - intros (A & B & C) j [<-|Hj]; auto. apply in_app_iff in Hj as [Hj|Hj]; auto.
Qed.
Lemma old_cons n i k d sp kids l : i < n -> old n (Nd i k d sp kids :: l) = i :: old n kids ++ old n l.
Proof. intros H. unfold old. rewrite ids_cons. simpl. destruct (Nat.ltb_spec i n); [|lia]. rewrite filter_app. auto. Qed.
Lemma in_pre_app x l l' : In x (preorder_list (l ++ l')) <-> In x (preorder_list l) \/ In x (preorder_list l').
Proof. unfold preorder_list. rewrite flat_map_app. apply in_app_iff. Qed.

Lemma extends_nil O n l : old n l = [] -> extends O n [] l.
Proof. intros H. split; auto. intros x []. Qed.
Lemma extends_cons O n i k k' d sp sp' kids kids' l l' : i < n -> In i O \/ sp' = sp -> extends O n kids kids' -> extends O n l l' ->
  extends O n (Nd i k d sp kids :: l) (Nd i k' d sp' kids' :: l').
Proof.
  intros Hi Hsp [A1 A2] [B1 B2]. split.
  - rewrite old_cons by auto. rewrite ids_cons, A1, B1. auto.
  - intros x Hx. apply in_pre_cons in Hx as [->|[Hx|Hx]].
    + exists (Nd i k' d sp' kids'). split; [apply in_pre_cons; auto|]. auto.
    + destruct (A2 x Hx) as (x' & H & G). exists x'. split; auto. apply in_pre_cons; auto.
    + destruct (B2 x Hx) as (x' & H & G). exists x'. split; auto. apply in_pre_cons; auto.
Qed.
Lemma extends_app O n l l' m m' : extends O n l l' -> extends O n m m' -> extends O n (l ++ m) (l' ++ m').
Proof.
  intros [A1 A2] [B1 B2]. split; [rewrite old_app, ids_app, A1, B1; auto|]. intros x Hx. apply in_pre_app in Hx as [Hx|Hx].
  - destruct (A2 x Hx) as (x' & H & G). exists x'. split; auto. apply in_pre_app; auto.
  - destruct (B2 x Hx) as (x' & H & G). exists x'. split; auto. apply in_pre_app; auto.
Qed.
Lemma extends_new O n k d sp l l' : extends O n l l' -> extends O n l [Nd n k d sp l'].
Proof.
  intros [A1 A2]. split.
  - unfold old. rewrite ids_cons. simpl. rewrite Nat.ltb_irrefl, app_nil_r. exact A1.
  - intros x Hx. destruct (A2 x Hx) as (x' & H & G). exists x'. split; auto. apply in_pre_cons; auto.
Qed.
Lemma kids_small n l : small n l -> forall x, In x (preorder_list l) -> small n (r_kids x).
Proof.
  intros H x Hx i Hi. apply H. apply in_map_iff in Hi as (y & <- & Hy). apply in_map. 
  revert Hx. clear H. intros Hx. unfold preorder_list in *. apply in_flat_map in Hx as (r & Hr & Hx). apply in_flat_map. exists r. split; auto.
  revert Hx. clear Hr. induction r as [j k d sp kids IH] using rose_ind'. simpl. intros [<-|Hx].
  - right. exact Hy.
  - right. apply in_flat_map in Hx as (q & Hq & Hx). apply in_flat_map. exists q. split; auto. rewrite Forall_forall in IH. auto.
Qed.
Lemma extends_refl O n l : small n l -> extends O n l l.
Proof.
  intros H. split; [apply old_small; auto|]. intros x Hx. exists x. split; auto. split; auto. split; auto. split; auto. apply old_small. eapply kids_small; eauto.
Qed.
Lemma old_old n m l : n <= m -> filter (fun i => i <? n) (old m l) = old n l.
Proof.
  intros H. unfold old. induction (ids l) as [|i v IH]; simpl; auto. destruct (Nat.ltb_spec i m); simpl; [rewrite IH; auto|].
  destruct (Nat.ltb_spec i n); auto; lia.
Qed.
Lemma extends_trans O O' n m l l' l'' : n <= m -> (forall i, i < n -> In i O' -> In i O) -> small n l -> extends O n l l' -> extends O' m l' l'' -> extends O n l l''.
Proof.
  intros H HO Hsm [A1 A2] [B1 B2]. split.
  - rewrite <- (old_old n m) by auto. rewrite B1. exact A1.
  - intros x Hx. destruct (A2 x Hx) as (x' & Hx' & E1 & E2 & E3 & E4). destruct (B2 x' Hx') as (x2 & Hx2 & G1 & G2 & G3 & G4).
    exists x2. split; auto. split; [congruence|]. split; [congruence|]. split; [rewrite <- (old_old n m) by auto; rewrite G3; exact E3|].
    destruct E4 as [E4|E4]; auto. destruct G4 as [G4|G4]; [left|right; congruence]. apply HO; [|congruence]. apply Hsm, in_map. auto.
Qed.

Lemma after_extends O n s x : r_id x = n -> r_kids x = [] -> forall l, small n l -> extends O n l (flat_map (after_in s x) l).
Proof.
  intros Hx Hk. assert (Hn : extends O n [] [x]).
  { destruct x as [i k d sp kids]. simpl in Hx, Hk. subst. apply extends_new. apply extends_nil. auto. }
  assert (G : forall y, small n [y] -> extends O n [y] (after_in s x y)).
  { induction y as [i k d sp kids IH] using rose_ind'. intros Hs. apply small_cons in Hs as (Hi & Hs & _).
    assert (Gk : extends O n kids (flat_map (after_in s x) kids)).
    { clear -IH Hs. induction kids as [|y kids IHk]; simpl; [apply extends_nil; auto|]. inversion IH; subst. destruct y as [j kk dd ss ks].
      apply small_cons in Hs as (A & B & C). apply (extends_app O n [Nd j kk dd ss ks]); auto. apply H1. apply small_cons. split; auto. split; auto. intros ? []. }
    cbn [after_in]. change (extends O n [Nd i k d sp kids] ([Nd i k d sp (flat_map (after_in s x) kids)] ++ (if i =? s then [x] else []))).
    rewrite <- (app_nil_r [Nd i k d sp kids]). apply extends_app.
    - apply extends_cons; auto. apply extends_nil; auto.
    - destruct (i =? s); auto. apply extends_nil; auto. }
  intros l. induction l as [|[j k d sp kids] l IH]; intros Hs; [apply extends_nil; auto|]. apply small_cons in Hs as (A & B & C).
  cbn [flat_map]. apply (extends_app O n [Nd j k d sp kids]); auto. apply G. apply small_cons. split; auto. split; auto. intros ? [].
Qed.
Lemma into_extends O n p x : r_id x = n -> r_kids x = [] -> forall l, small n l -> extends O n l (map (into p x) l).
Proof.
  intros Hx Hk. assert (Hn : extends O n [] [x]).
  { destruct x as [i k d sp kids]. simpl in Hx, Hk. subst. apply extends_new. apply extends_nil. auto. }
  assert (G : forall y l l', small n [y] -> extends O n l l' -> extends O n (y :: l) (into p x y :: l')).
  { induction y as [i k d sp kids IH] using rose_ind'. intros l l' Hs Hl. apply small_cons in Hs as (Hi & Hs & _).
    cbn [into]. apply extends_cons; auto. rewrite <- (app_nil_r kids) at 1. apply extends_app.
    - clear -IH Hs. induction kids as [|y kids IHk]; simpl; [apply extends_nil; auto|]. inversion IH; subst. destruct y as [j kk dd ss ks].
      apply small_cons in Hs as (A & B & C). apply H1; auto. apply small_cons. split; auto. split; auto. intros ? [].
    - destruct (i =? p); auto. apply extends_nil; auto. }
  intros l. induction l as [|y l IH]; intros Hs; [apply extends_nil; auto|]. destruct y as [j k d sp kids]. apply small_cons in Hs as (A & B & C).
  cbn [map]. apply G; auto. apply small_cons. split; auto. split; auto. intros ? [].
Qed.
Lemma respan_extends O n p f : In p O -> forall l l', extends O n l' l -> extends O n l' (map (respan p f) l).
Proof.
  intros HpO l l' [A1 A2].
  assert (R : forall y, map r_id (preorder (respan p f y)) = map r_id (preorder y)).
  { induction y as [i k d sp kids IH] using rose_ind'. simpl. f_equal. clear -IH. induction IH; simpl; auto. rewrite !map_app. congruence. }
  assert (RL : forall v : list (rose T), ids (map (respan p f) v) = ids v).
  { unfold preorder_list. induction v as [|y v IH]; simpl; auto. rewrite !map_app, R, IH. auto. }
  assert (IP : forall y q, In y (preorder q) -> In (respan p f y) (preorder (respan p f q))).
  { intros y q. induction q as [i k d sp kids IH] using rose_ind'. simpl. intros [<-|Hy]; [left; auto|]. right.
    apply in_flat_map in Hy as (z & Hz & Hy). apply in_flat_map. exists (respan p f z). split; [apply in_map; auto|]. rewrite Forall_forall in IH. auto. }
  split; [unfold old; rewrite RL; exact A1|]. intros x Hx. destruct (A2 x Hx) as (x' & H & E1 & E2 & E3 & E4). exists (respan p f x'). split; [|split; [|split; [|split]]].
  - unfold preorder_list in *. apply in_flat_map in H as (q & Hq & H). apply in_flat_map. exists (respan p f q). split; auto. apply in_map; auto.
  - rewrite <- E1. destruct x'; auto.
  - rewrite <- E2. destruct x'; auto.
  - rewrite <- E3. unfold old. destruct x' as [i k d sp kids]. cbn [respan r_kids]. rewrite RL. auto.
  - destruct E4 as [E4|E4]; auto. destruct x' as [i k d sp kids]. simpl in *. subst i. destruct (Nat.eqb_spec (r_id x) p) as [->|_]; auto.
Qed.
Lemma wrap_extends O n id k d (g : rose T -> list (rose T) -> span) : forall l, small n l ->
  extends O n l (wrap_from id (fun x later => Nd n k d (g x later) (x :: later)) l).
Proof.
  set (w := fun x later => Nd n k d (g x later) (x :: later)).
  assert (G : forall y, small n [y] -> forall l l', extends O n l l' -> extends O n (y :: l) (wrap_in id w y :: l')).
  { induction y as [i kk dd sp kids IH] using rose_ind'. intros Hs l l' Hl. apply small_cons in Hs as (Hi & Hs & _). cbn [wrap_in]. apply extends_cons; auto.
    clear -IH Hs. induction kids as [|y kids IHk]; simpl; [apply extends_nil; auto|]. inversion IH; subst.
    assert (Hs' := Hs). destruct y as [j k2 d2 s2 ks]. apply small_cons in Hs' as (A & B & C).
    cbn [r_id]. destruct (j =? id).
    - unfold w. apply extends_new. apply extends_refl; auto.
    - apply H1; auto. apply small_cons. split; auto. split; auto. intros ? []. }
  intros l. unfold wrap_from. induction l as [|y l IH]; intros Hs; simpl; [apply extends_nil; auto|].
  assert (Hs' := Hs). destruct y as [j k2 d2 s2 ks]. apply small_cons in Hs' as (A & B & C). cbn [r_id]. destruct (j =? id).
  - unfold w. apply extends_new. apply extends_refl; auto.
  - apply G; auto. apply small_cons. split; auto. split; auto. intros ? [].
Qed.

Lemma add_extends d sp (h : shape T) : small (length (h_parents h)) (h_forest h) ->
  extends (h_open h) (length (h_parents h)) (h_forest h) (h_forest (h_add d sp h)).
Proof.
  intros Hs. unfold h_add. cbn [h_forest]. unfold respan_level. cbn [h_open h_forest].
  assert (G : extends (h_open h) (length (h_parents h)) (h_forest h) (match h_last h, h_open h with
     | Some s, _ => flat_map (after_in s (Nd (length (h_parents h)) KLeaf d sp [])) (h_forest h)
     | None, p :: _ => map (into p (Nd (length (h_parents h)) KLeaf d sp [])) (h_forest h)
     | None, [] => h_forest h ++ [Nd (length (h_parents h)) KLeaf d sp []]
     end)).
  { destruct (h_last h); [apply after_extends; auto|]. destruct (h_open h); [|apply into_extends; auto].
    rewrite <- (app_nil_r (h_forest h)) at 1. apply extends_app; [apply extends_refl; auto|]. apply extends_new, extends_nil; auto. }
  destruct (h_open h); auto. apply respan_extends; [left; auto|]. exact G.
Qed.
Lemma widen_extends O n sp (h : shape T) l : (forall p, In p (h_open h) -> In p O) -> extends O n l (h_forest h) -> extends O n l (h_forest (h_widen sp h)).
Proof. intros HO H. unfold h_widen. cbn [h_forest]. unfold respan_level. destruct (h_open h); auto. apply respan_extends; auto. apply HO. left; auto. Qed.

Lemma step_extends F (h : shape T) o : small (length (h_parents h)) (h_forest h) ->
  extends (h_open h) (length (h_parents h)) (h_forest h) (h_forest (fst (h_step F h o))).
Proof.
  intros Hs. pose proof (extends_refl (h_open h) _ _ Hs) as Hr.
  assert (Ho : forall d sp, extends (h_open h) (length (h_parents h)) (h_forest h) (h_forest (fst (h_open_with F d sp h)))).
  { intros d sp. unfold h_open_with. destruct (h_full F h); auto. apply (add_extends d sp h); auto. }
  assert (Ht : forall d len, extends (h_open h) (length (h_parents h)) (h_forest h) (h_forest (fst (h_token F d len h)))).
  { intros d len. unfold h_token. destruct (len_is_empty F len).
    - destruct (h_full F h); auto. apply add_extends; auto.
    - destruct (ix_checked_add_len F (h_cursor h) len) as [c|]; auto. cbv zeta. destruct (h_full F h); auto.
      apply (add_extends d (Span (h_cursor h) c) (h_stretch c (h_move c h))); auto. }
  assert (Hc : forall k d osp, extends (h_open h) (length (h_parents h)) (h_forest h) (h_forest (fst (h_close_at F k d osp h)))).
  { intros k d osp. unfold h_close_at. destruct (nth_error (h_handles h) k) as [a|]; auto. destruct (nth_error (h_cells h) a) as [[id lv]|]; auto.
    destruct (negb _); auto. destruct (h_full F h); auto. destruct (run_at id (h_forest h)) as [[x later]|].
    - cbn [fst h_forest]. apply wrap_extends; auto.
    - apply add_extends; auto. }
  destruct o; simpl; auto.
  - unfold h_close. destruct (h_open h) as [|p up] eqn:Eo; auto. destruct (find _ _) as [x|]; auto. cbn [fst h_move h_forest]. apply widen_extends; auto. simpl. auto.
  - unfold h_token_with. destruct (h_full F h); auto. cbn [fst h_move h_forest]. apply widen_extends; [simpl; auto|]. apply add_extends; auto.
  - unfold h_checkpoint. destruct (h_full F h); auto. destruct (last_error (h_cells h)) as [[i o]|]; auto. destruct (_ && _); auto.
Qed.
Lemma step_opens F (h : shape T) o i : i < length (h_parents h) -> In i (h_open (fst (h_step F h o))) -> In i (h_open h).
Proof.
  intros Hi.
  assert (Ho : forall d sp, In i (h_open (fst (h_open_with F d sp h))) -> In i (h_open h)).
  { intros d sp. unfold h_open_with. destruct (h_full F h); auto. simpl. intros [H|H]; auto. lia. }
  assert (Ht : forall d len, In i (h_open (fst (h_token F d len h))) -> In i (h_open h)).
  { intros d len. unfold h_token. destruct (len_is_empty F len); [destruct (h_full F h); auto|]. destruct (ix_checked_add_len F (h_cursor h) len); auto. cbv zeta. destruct (h_full F h); auto. }
  assert (Hc : forall k d osp, In i (h_open (fst (h_close_at F k d osp h))) -> In i (h_open h)).
  { intros k d osp. unfold h_close_at. destruct (nth_error (h_handles h) k) as [a|]; auto. destruct (nth_error (h_cells h) a) as [[id lv]|]; auto.
    destruct (negb _); auto. destruct (h_full F h); auto. destruct (run_at id (h_forest h)) as [[x later]|]; auto. }
  destruct o; simpl; eauto.
  - unfold h_close. clear Ho Ht Hc. destruct (h_open h) as [|p up] eqn:Eo; [simpl; rewrite Eo; auto|].
    match goal with |- context [find ?f ?v] => destruct (find f v) end; simpl; auto. rewrite Eo. auto.
  - unfold h_token_with. destruct (h_full F h); auto.
  - unfold h_checkpoint. destruct (h_full F h); auto. destruct (last_error (h_cells h)) as [[j o]|]; auto. destruct (_ && _); auto.
Qed.
End Grow.

Lemma run_app {T} F (w : world T) ops more : run F w (ops ++ more) =
  let '(w1, r1) := run F w ops in let '(w2, r2) := run F w1 more in (w2, r1 ++ r2).
Proof.
  revert w. induction ops as [|o ops IH]; intros w; simpl; [destruct (run F w more); auto|].
  destruct (step F w o) as [w1 r]. rewrite IH. destruct (run F w1 ops) as [w2 r2]. destruct (run F w2 more) as [w3 r3]. auto.
Qed.

Lemma sim_extends T F (HF : vec_flavor F) : forall (ops : list (op T)) w s, wplaced w -> sim w s ->
  let '(s', _) := h_run F s ops in extends (h_open s) (length (h_parents s)) (h_forest s) (h_forest s') /\ length (h_parents s) <= length (h_parents s').
Proof.
  induction ops as [|o ops IH]; intros w s Hw HS; simpl.
  - split; auto. apply extends_refl. intros i Hi. rewrite (cs_len _ _ (sm_core _ _ HS)). apply (csim_ids w s Hw (sm_core _ _ HS)). auto.
  - assert (Hsm : small (length (h_parents s)) (h_forest s)).
    { intros i Hi. rewrite (cs_len _ _ (sm_core _ _ HS)). apply (csim_ids w s Hw (sm_core _ _ HS)). auto. }
    pose proof (step_extends F s o Hsm) as He. pose proof (step_sim F HF w s o Hw HS) as A.
    assert (Hw1 : wplaced (fst (step F w o))) by (split; [apply step_ok; auto; apply Hw|apply step_placed; auto]).
    destruct (h_step F s o) as [s1 r1'] eqn:Es. destruct (step F w o) as [w1 r1]. destruct A as [_ A]. simpl in Hw1, He. specialize (IH w1 s1 Hw1 A).
    destruct (h_run F s1 ops) as [s2 rs']. destruct IH as [B1 B2].
    assert (Hle : length (h_parents s) <= length (h_parents s1)).
    { destruct He as [He _]. pose proof (csim_ids w1 s1 Hw1 (sm_core _ _ A)) as [_ I1]. pose proof (csim_ids w s Hw (sm_core _ _ HS)) as [_ I0].
      rewrite (cs_len _ _ (sm_core _ _ HS)), (cs_len _ _ (sm_core _ _ A)) in *.
      destruct (Nat.le_gt_cases (tree_len (b_tree (w_builder w))) (tree_len (b_tree (w_builder w1)))) as [?|Hgt]; auto. exfalso.
      assert (G : In (tree_len (b_tree (w_builder w1))) (ids (h_forest s))) by (apply I0; auto). rewrite <- He in G. apply filter_In in G as [G _]. apply I1 in G. lia. }
    split; [|lia]. eapply (extends_trans (h_open s) (h_open s1)); eauto.
    intros i Hi Hin. apply (step_opens F s o); auto. rewrite Es. exact Hin.
Qed.

Lemma h_run_app {T} F (h : shape T) ops more : h_run F h (ops ++ more) =
  let '(h1, r1) := h_run F h ops in let '(h2, r2) := h_run F h1 more in (h2, r1 ++ r2).
Proof.
  revert h. induction ops as [|o ops IH]; intros h; simpl; [destruct (h_run F h more); auto|].
  destruct (h_step F h o) as [h1 r]. rewrite IH. destruct (h_run F h1 ops) as [h2 r2]. destruct (h_run F h2 more) as [h3 r3]. auto.
Qed.
Lemma same_ids T (l l' : list (rose T)) : same_reading l l' -> ids l' = ids l.
Proof. induction 1; auto. rewrite !ids_cons. congruence. Qed.
Lemma same_in T (l l' : list (rose T)) : same_reading l l' -> forall x, In x (preorder_list l) -> exists x', In x' (preorder_list l') /\
  r_id x' = r_id x /\ r_data x' = r_data x /\ ids (r_kids x') = ids (r_kids x) /\ r_span x' = r_span x.
Proof.
  induction 1 as [|i k k' d sp kids kids' rest rest' H1 IH1 H2 IH2]; intros x Hx; [destruct Hx|]. apply in_pre_cons in Hx as [->|[Hx|Hx]].
  - exists (Nd i k' d sp kids'). split; [apply in_pre_cons; auto|]. simpl. split; auto. split; auto. split; auto. apply same_ids; auto.
  - destruct (IH1 x Hx) as (x' & H & G). exists x'. split; auto. apply in_pre_cons; auto.
  - destruct (IH2 x Hx) as (x' & H & G). exists x'. split; auto. apply in_pre_cons; auto.
Qed.

Theorem C66_grows : forall T F (ops more : list (op T)) l l', vec_flavor F ->
  let t := tree_so_far F ops in let t' := tree_so_far F (ops ++ more) in
  reads t (tree_first t) l -> reads t' (tree_first t') l' ->
  tree_len t <= tree_len t' /\
  filter (fun i => i <? tree_len t) (map r_id (preorder_list l')) = map r_id (preorder_list l) /\
  forall x, In x (preorder_list l) -> exists x', In x' (preorder_list l') /\ r_id x' = r_id x /\ r_data x' = r_data x /\
    filter (fun i => i <? tree_len t) (map r_id (preorder_list (r_kids x'))) = map r_id (preorder_list (r_kids x)) /\
    (In (r_id x) (h_open (shape_of F ops)) \/ r_span x' = r_span x).
Proof.
  intros T F ops more l l' HF t t' Hl Hl'.
  destruct (history_sim T F ops HF) as (_ & HS & Hw). destruct (history_sim T F (ops ++ more) HF) as (_ & HS' & Hw').
  pose proof (sim_extends T F HF more _ _ Hw HS) as G.
  assert (E : shape_of F (ops ++ more) = fst (h_run F (shape_of F ops) more)).
  { unfold shape_of. rewrite h_run_app. destruct (h_run F shape_new ops) as [s1 r1]. simpl. destruct (h_run F s1 more). auto. }
  destruct (h_run F (shape_of F ops) more) as [s' rs]. simpl in E. rewrite E in HS'. destruct G as [[G1 G2] Hle].
  rewrite (cs_len _ _ (sm_core _ _ HS)) in *. rewrite (cs_len _ _ (sm_core _ _ HS')) in *.
  pose proof (sees_reads _ _ _ _ (cs_sees _ _ (sm_core _ _ HS))) as R. pose proof (sees_reads _ _ _ _ (cs_sees _ _ (sm_core _ _ HS'))) as R'.
  pose proof (C64_one _ _ _ _ _ R Hl) as Sl. pose proof (C64_one _ _ _ _ _ R' Hl') as Sl'. pose proof (C64_one _ _ _ _ _ Hl R) as Sr.
  split; [exact Hle|]. split.
  - rewrite (same_ids _ _ _ Sl), (same_ids _ _ _ Sl'). exact G1.
  - intros x Hx. destruct (same_in _ _ _ Sr x Hx) as (y & Hy & Y1 & Y2 & Y3 & Y4). destruct (G2 y Hy) as (y' & Hy' & Z1 & Z2 & Z3 & Z4).
    destruct (same_in _ _ _ Sl' y' Hy') as (x' & Hx' & X1 & X2 & X3 & X4). exists x'. split; auto. split; [congruence|]. split; [congruence|].
    split; [rewrite X3, <- Y3; exact Z3|]. rewrite <- Y1. destruct Z4; [auto|right; congruence].
Qed.
Print Assumptions C66_grows.

(** ** Hypotheses can be met *)

(** Two checkpoints, one of them used after the other has swallowed its place: the second token is wrapped where it
    is, inside the first wrapper, and the next token goes behind it; the token before stays outside. *)
Example C65_inhabited : vec_flavor flavor_default /\
  h_forest (fst (h_run flavor_default shape_new missed_ops)) =
    [Nd 2 KWrap 10 (Span 0 2) [Nd 0 KLeaf 2 (Span 0 1) []; Nd 4 KWrap 11 (Span 1 2) [Nd 1 KLeaf 3 (Span 1 2) []]; Nd 5 KLeaf 5 (Span 3 4) []];
     Nd 3 KLeaf 4 (Span 2 3) []] /\
  h_parents (fst (h_run flavor_default shape_new missed_ops)) = [Some 2; Some 4; None; None; Some 2; None] /\
  snd (h_run flavor_default shape_new missed_ops) = [RCheckpoint; RNode 0; RCheckpoint; RNode 1; RNode 2; RNode 3; RNode 4; RNode 5] /\
  snd (h_run flavor_default shape_new [OCheckpoint; OOpen 1; OCloseAt 0 2; OClose; OCloseAt 0 2; OCloseAt 1 3; OClose]) =
    [RCheckpoint; RNode 0; RErr CloseAtError; RUnit; RNode 1; RNoHandle; RErr CloseError].
Proof. split; [split; auto|]. repeat split. Qed.

(** The tree of [missed_ops] after five calls and after all eight: nothing that was there has moved. *)
Example C66_inhabited : exists (t t' : tree nat) l l', t = tree_so_far flavor_default (firstn 5 missed_ops) /\
  t' = tree_so_far flavor_default (firstn 5 missed_ops ++ skipn 5 missed_ops) /\ reads t (tree_first t) l /\ reads t' (tree_first t') l' /\
  map r_id (preorder_list l) = [2; 0; 1] /\ map r_id (preorder_list l') = [2; 0; 4; 1; 5; 3].
Proof.
  exists (tree_so_far flavor_default (firstn 5 missed_ops)), (tree_so_far flavor_default (firstn 5 missed_ops ++ skipn 5 missed_ops)).
  exists [Nd 2 KLeaf 10 (Span 0 2) [Nd 0 KLeaf 2 (Span 0 1) []; Nd 1 KLeaf 3 (Span 1 2) []]], missed_doc.
  split; auto. split; auto. split; [apply (read_reads _ 10); vm_compute; reflexivity|]. split; [apply (read_reads _ 10); vm_compute; reflexivity|]. split; reflexivity.
Qed.
