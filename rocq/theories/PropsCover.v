(** Property theorems: which nodes lie where in the text (C62). *)
From Coq Require Import Lia Permutation.
From Verif Require Import Base Pointer Index Tree Builder Hist Node Iter Query Edit Spec SpecMap SpecEq SpecSpan SpecRange SpecEdit SpecModified Rep Marks Refine TreeRep
  Enum Walk WalkTree WalkGen WalkThms Nav Bounds DocInv Layout Modify Replaced PropsTree PropsSpan PropsSafe PropsWith Range PropsRange PropsEdit PropsQuery PropsModified PropsHistory Demo.
Local Open Scope N_scope.

(** ** The nodes that cover a position *)
Section Doc.
Context {T : Type}.
Implicit Types (x y z : rose T) (l : list (rose T)).

Lemma laid_covered : (forall s x e, @laid T s x e -> forall p, s <= p < e -> exists y, In y (preorder x) /\ r_kids y = [] /\ holds_pos p y) /\
  (forall s l e, @laid_list T s l e -> forall p, s <= p < e -> exists y, In y (preorder_list l) /\ r_kids y = [] /\ holds_pos p y).
Proof.
  apply laid_mut.
  - intros s e i d H p Hp. eexists. split; [left; reflexivity|]. split; auto.
  - intros. lia.
  - intros s e i k d x kids _ IH p Hp. destruct (IH p Hp) as (y & Hy & G). exists y. split; auto. right. auto.
  - intros. lia.
  - intros s x m l e Hx IHx Hl IHl p Hp. destruct (N.lt_ge_cases p m) as [H|H].
    + destruct (IHx p) as (y & Hy & G); [lia|]. exists y. split; auto. apply in_app_iff; auto.
    + destruct (IHl p) as (y & Hy & G); [lia|]. exists y. split; auto. apply in_app_iff; auto.
Qed.

Definition before (xs : list (rose T)) x y : Prop := exists A B C, xs = A ++ x :: B ++ y :: C.
Lemma before_app u v x y : before (u ++ v) x y -> before u x y \/ before v x y \/ (In x u /\ In y v).
Proof.
  intros (A & B & C & E). revert A E. induction u as [|a u IH]; intros A E; simpl in E.
  - right. left. exists A, B, C. auto.
  - destruct A as [|a' A]; simpl in E; injection E as -> E.
    + assert (Hy : In y (u ++ v)) by (rewrite E; apply in_app_iff; right; left; auto).
      apply in_app_iff in Hy as [Hy|Hy]; [|right; right; simpl; auto].
      left. apply in_split in Hy as (B' & C' & ->). exists [], B', C'. auto.
    + destruct (IH A E) as [(A' & B' & C' & ->)|[H|[H1 H2]]]; auto; [|right; right; simpl; auto].
      left. exists (a' :: A'), B', C'. auto.
Qed.
Lemma before_in xs x y : before xs x y -> In x xs /\ In y xs.
Proof. intros (A & B & C & ->). split; apply in_app_iff; right; [left; auto|right; apply in_app_iff; right; left; auto]. Qed.
Lemma before_cons a u x y : before (a :: u) x y -> before u x y \/ (x = a /\ In y u).
Proof.
  intros H. change (a :: u) with ([a] ++ u) in H. apply before_app in H as [H|[H|[[->|[]] H]]]; auto.
  destruct H as (A & B & C & E). destruct A as [|? [|]], B; discriminate.
Qed.

(** Of two nodes in walk order, the second starts no earlier; it is inside the first or begins where the first has ended. *)
Definition well_ordered l : Prop := forall x y, before (preorder_list l) x y ->
  s_start (r_span x) <= s_start (r_span y) /\ (In y (preorder x) \/ s_end (r_span x) <= s_start (r_span y)).

Lemma laid_before : (forall s x e, @laid T s x e -> well_ordered [x]) /\ (forall s l e, @laid_list T s l e -> well_ordered l).
Proof.
  apply laid_mut; unfold well_ordered, preorder_list; cbn [flat_map preorder app].
  - intros s e i d H x y Hb. exfalso. destruct Hb as ([|a [|]] & [|] & C & E); discriminate.
  - intros s i k d x y Hb. exfalso. destruct Hb as ([|a [|]] & [|] & C & E); discriminate.
  - intros s e i k d x kids Hl IH a b Hb. rewrite app_nil_r in Hb. apply before_cons in Hb as [Hb|[-> Hb]]; auto. cbn [r_span s_start s_end].
    split; [|left; right; exact Hb]. apply (proj2 laid_bounds _ _ _ Hl b Hb).
  - intros s a b ([|] & B & C & E); discriminate.
  - intros s x m l e Hx IHx Hl IHl a b Hb. apply before_app in Hb as [Hb|[Hb|[Ha Hb]]]; auto.
    + apply IHx. rewrite app_nil_r. auto.
    + pose proof (proj1 laid_bounds _ _ _ Hx a Ha). pose proof (proj2 laid_bounds _ _ _ Hl b Hb).
      destruct (proj1 laid_inside _ _ _ Hx a Ha) as (s' & e' & La & _). pose proof (laid_span _ _ _ La) as Ea.
      pose proof (laid_le _ _ _ La). rewrite Ea in *. cbn [s_start s_end] in *. lia.
Qed.

Lemma edited_before c top f n s (xs : list (rose T)) xs' n' s' up : edited c top f n s xs xs' n' s' up ->
  well_ordered xs' /\ (forall x, In x (preorder_list xs') -> s <= s_start (r_span x) /\ s_start (r_span x) <= s_end (r_span x) /\ s_end (r_span x) <= s') /\ s <= s'.
Proof.
  assert (Node : forall n s (d : T) kids' s1 xs' s2,
    well_ordered kids' /\ (forall x, In x (preorder_list kids') -> s <= s_start (r_span x) /\ s_start (r_span x) <= s_end (r_span x) /\ s_end (r_span x) <= s1) /\ s <= s1 ->
    well_ordered xs' /\ (forall x, In x (preorder_list xs') -> s1 <= s_start (r_span x) /\ s_start (r_span x) <= s_end (r_span x) /\ s_end (r_span x) <= s2) /\ s1 <= s2 ->
    well_ordered (Nd n KOpen d (Span s (last_reach s kids')) kids' :: xs') /\
    (forall x, In x (preorder_list (Nd n KOpen d (Span s (last_reach s kids')) kids' :: xs')) -> s <= s_start (r_span x) /\ s_start (r_span x) <= s_end (r_span x) /\ s_end (r_span x) <= s2) /\ s <= s2).
  { intros n0 s0 d kids' s1 xs1 s2 (W1 & B1 & L1) (W2 & B2 & L2).
    assert (R : s0 <= last_reach s0 kids' <= s1).
    { unfold last_reach. destruct (last_error kids') as [z|] eqn:E; [|lia].
      assert (Hz : In z kids') by (apply last_error_in; auto).
      pose proof (B1 z (preorder_list_top _ _ Hz)). unfold reach. destruct (r_kids z); lia. }
    split; [|split; [|lia]].
    - intros x y Hb. unfold preorder_list in Hb. cbn [flat_map preorder] in Hb. fold (preorder_list kids') in Hb. fold (preorder_list xs1) in Hb.
      apply before_app in Hb as [Hb|[Hb|[Hx Hy]]]; auto.
      + apply before_cons in Hb as [Hb|[-> Hb]]; auto. cbn [r_span s_start s_end]. split; [apply B1; auto|]. left. right. exact Hb.
      + specialize (B2 y Hy). destruct Hx as [<-|Hx]; cbn [r_span s_start s_end]; [lia|]. specialize (B1 x Hx). lia.
    - intros x Hx. unfold preorder_list in Hx. cbn [flat_map preorder] in Hx. fold (preorder_list kids') in Hx. fold (preorder_list xs1) in Hx.
      apply in_app_iff in Hx as [[<-|Hx]|Hx]; cbn [r_span s_start s_end]; [lia| |].
      + specialize (B1 x Hx). lia.
      + specialize (B2 x Hx). lia. }
  assert (Nil : forall s, well_ordered [] /\ (forall x : rose T, In x (preorder_list []) -> s <= s_start (r_span x) /\ s_start (r_span x) <= s_end (r_span x) /\ s_end (r_span x) <= s) /\ s <= s).
  { intros s0. split; [|split; [intros x []|lia]]. intros a b ([|] & B & C & E); discriminate. }
  induction 1 as [tp force n s|tp force n s i k d sp xs xs' n2 s2 up Hck H IH|tp force n s i k d sp y kids kids' n1 s1 xs xs' n2 s2 up Hck HK IHK H IH
    |tp force n s i k d sp y kids kids' n1 s1 xs xs' n2 s2 up Hck HK IHK H IH|tp n s x y xs out n2 s2 up Hck H IH|n s x Hck|n s x Hck]; auto.
  - destruct IH as (W & B & L). unfold width in *. split; [|split; [|lia]].
    + intros a b Hb. unfold preorder_list in Hb. cbn [flat_map preorder app] in Hb. apply before_cons in Hb as [Hb|[-> Hb]]; auto.
      specialize (B b Hb). cbn [r_span s_start s_end]. lia.
    + intros a [<-|Ha]; cbn [r_span s_start s_end]; [lia|]. specialize (B a Ha). lia.
  - eapply Node; eauto.
  - eapply Node; eauto.
Qed.
Lemma ordered_replaced i v l : well_ordered l -> well_ordered (map (set_value i v) l).
Proof.
  intros H x y Hb. rewrite sv_preorder_list in Hb. destruct Hb as (A & B & C & E).
  apply map_eq_app in E as (a & r & E1 & _ & E2). destruct r as [|x0 r]; [discriminate|]. injection E2 as Ex E2.
  apply map_eq_app in E2 as (b & r2 & E3 & _ & E4). destruct r2 as [|y0 c]; [discriminate|]. injection E4 as Ey E4. subst x y.
  assert (Hb : before (preorder_list l) x0 y0) by (exists a, b, c; subst; auto).
  destruct (H x0 y0 Hb) as [H1 H2]. rewrite !sv_span. split; auto. destruct H2 as [H2|H2]; auto. left. rewrite sv_preorder. apply in_map. auto.
Qed.
End Doc.

Lemma mod_ordered T F (t : tree T) l : modified F t l -> well_ordered l.
Proof.
  induction 1 as [fuel c t0 l0 n s t l Hm Hp He E|t l i n v t' old M IH Hn E].
  - apply (edited_before _ _ _ _ _ _ _ _ _ _ He).
  - apply ordered_replaced. auto.
Qed.

Lemma enum_det {S A} (nxt : S -> result (S * option A)) : forall i1 i2 s, enumerates nxt s i1 -> enumerates nxt s i2 -> i1 = i2.
Proof.
  induction i1 as [|a i1 IH]; intros [|b i2] w N1 N2; auto.
  - apply enumerates_nil in N1 as (w1 & E1 & _). apply enumerates_cons in N2 as (w2 & E2 & _). congruence.
  - apply enumerates_cons in N1 as (w1 & E1 & _). apply enumerates_nil in N2 as (w2 & E2 & _). congruence.
  - apply enumerates_cons in N1 as (w1 & E1 & N1). apply enumerates_cons in N2 as (w2 & E2 & N2).
    rewrite E1 in E2. injection E2 as -> ->. f_equal. eauto.
Qed.

Lemma views_ids T (items : list (node T)) xs : map view items = map rview xs -> map fst items = map r_id xs.
Proof.
  revert xs. induction items as [|n items IH]; intros [|x xs] E; try discriminate; auto.
  cbn [map] in E. injection E as E1 E2 E3 E4 E5. cbn [map]. f_equal; auto.
Qed.

(** A tree built by plain calls, a position in its text: there is one token there, and the nodes whose spans have the position are
    exactly this token and its ancestors. *)
Theorem C62_chain : forall T F (ops : list (op T)) t l p, plain_run F ops t l -> p < total_of F ops ->
  exists i n above, tree_get t i = Some n /\ has_children n = false /\
    enumerates (total (ancestors_next (t_nodes t))) (node_ancestors n) above /\
    forall j m, tree_get t j = Some m -> (s_start (node_span m) <= p < s_end (node_span m) <-> In j (map fst above)).
Proof.
  intros T F ops t l p H Hp. destruct (plain_facts T F ops t l H) as (HL & _ & _). pose proof H as (_ & Hf & _).
  pose proof (fin_rep F ops t l Hf) as R.
  destruct (proj2 laid_covered _ _ _ HL p ltac:(lia)) as (x & Hx & Kx & Px). destruct (rep_get T t l x R Hx) as (n & En & V).
  destruct (ancestry_exists l x Hx) as (ch & Hc). destruct (C25_ancestors T F ops t l x n ch Hf Hc En) as (above & Ea & Va).
  exists (r_id x), n, above. split; auto. split. { apply view_span in V as (_ & V & _). rewrite V. apply kids_none. auto. }
  split; auto. intros j m Em. rewrite (views_ids _ _ _ Va).
  assert (Hz : exists z, In z (preorder_list l) /\ r_id z = j).
  { apply (preorder_of_id t l j R). apply get_fst in Em as [_ Em]. apply nth_error_Some. congruence. }
  destruct Hz as (z & Hz & <-). destruct (rep_get T t l z R Hz) as (m' & Em' & W). assert (m' = m) as -> by congruence.
  apply view_span in W as (W & _). rewrite W. split.
  - intros Pz. apply in_map. eapply in_chain; eauto. apply (proj2 (holds_above p x z Kx Px Pz) _ _ _ HL Hx Hz).
  - intros Hi. apply in_map_iff in Hi as (z' & Ez & Hz'). assert (z' = z) as ->.
    { eapply preorder_id_inj; eauto. eapply chain_all; eauto. }
    eapply (chain_holds l); eauto.
Qed.
Print Assumptions C62_chain.

(** Beyond the text there is nothing. *)
Theorem C62_end : forall T F (ops : list (op T)) t l j m, plain_run F ops t l -> tree_get t j = Some m ->
  s_start (node_span m) <= s_end (node_span m) <= total_of F ops.
Proof.
  intros T F ops t l j m H Em. destruct (plain_facts T F ops t l H) as (HL & _ & _). pose proof H as (_ & Hf & _). pose proof (fin_rep F ops t l Hf) as R.
  assert (Hz : exists z, In z (preorder_list l) /\ r_id z = j).
  { apply (preorder_of_id t l j R). apply get_fst in Em as [_ Em]. apply nth_error_Some. congruence. }
  destruct Hz as (z & Hz & <-). destruct (rep_get T t l z R Hz) as (m' & Em' & W). assert (m' = m) as -> by congruence.
  apply view_span in W as (W & _). rewrite W. destruct (proj2 laid_inside _ _ _ HL z Hz) as (s & e & Lz & B). rewrite (laid_span _ _ _ Lz). cbn [s_start s_end].
  pose proof (laid_le _ _ _ Lz). lia.
Qed.
Print Assumptions C62_end.

(** Two nodes, [i] before [j] in the walk: [j] starts no earlier, and [i] is an ancestor of [j], or [j] starts where [i] has ended or
    later.  For trees built by plain calls and for modified trees, which may have been built with any calls. *)
Theorem C62_order : forall T F (t : tree T) l items A i B j C n m above, (exists ops, plain_run F ops t l) \/ (modified F t l /\ fits F t) ->
  enumerates (walk_next F (t_nodes t)) (tree_walk t) items -> map fst items = A ++ i :: B ++ j :: C ->
  tree_get t i = Some n -> tree_get t j = Some m -> enumerates (total (ancestors_next (t_nodes t))) (node_ancestors m) above ->
  s_start (node_span n) <= s_start (node_span m) /\
  (s_end (node_span n) <= s_start (node_span m) \/ In i (map fst above)).
Proof.
  intros T F t l items A i B j C n m above H Ei Em Hn Hm Ha.
  assert (G : good F t l /\ well_ordered l).
  { destruct H as [(ops & H)|[M Hf]].
    - destruct (plain_facts T F ops t l H) as (HL & _ & _). destruct H as (_ & Hf & _). split; [apply (fin_good F ops); auto|].
      apply (proj2 laid_before _ _ _ HL).
    - split; [apply mod_good; auto|]. eapply mod_ordered; eauto. }
  destruct G as [Gd W]. pose proof Gd as (R & _).
  destruct (g_walk_thm F t l Gd) as (items' & Ei' & Vi). rewrite (enum_det _ _ _ _ Ei' Ei) in Vi. clear Ei' items'.
  apply views_ids in Vi. rewrite Em in Vi. symmetry in Vi. apply map_eq_app in Vi as (A' & r & EA & VA & Vr). destruct r as [|x r]; [discriminate|].
  cbn [map] in Vr. injection Vr as <- Vr. apply map_eq_app in Vr as (B' & r2 & -> & VB & Vr). destruct r2 as [|y C']; [discriminate|].
  cbn [map] in Vr. injection Vr as <- Vr.
  destruct (W x y) as [W1 W2]. { exists A', B', C'. auto. }
  assert (Hy : In y (preorder_list l)) by (rewrite EA; apply in_app_iff; right; right; apply in_app_iff; right; left; auto).
  assert (Hx : In x (preorder_list l)) by (rewrite EA; apply in_app_iff; right; left; auto).
  destruct (rep_get T t l x R Hx) as (n' & En' & Vn). assert (n' = n) as -> by congruence. apply view_span in Vn as (Vn & _).
  destruct (rep_get T t l y R Hy) as (m' & Em' & Vm). assert (m' = m) as -> by congruence. apply view_span in Vm as (Vm & _).
  rewrite Vn, Vm. split; auto. destruct W2 as [W2|W2]; auto. right.
  destruct (ancestry_exists l y Hy) as (ch & Hc).
  assert (Hch : enumerates_nodes (total (ancestors_next (t_nodes t))) (node_ancestors m) ch).
  { eapply enum_rel_map; [|eapply (ancestors_thm t l R); eauto]. intros a b [_ Q]; auto. }
  destruct Hch as (above' & Ea & Va). rewrite (enum_det _ _ _ _ Ha Ea), (views_ids _ _ _ Va). apply in_map. eapply in_chain; eauto.
Qed.
Print Assumptions C62_order.

(** The hypotheses are met: p{a, b} c, and the same without a. *)
Example C62_inhabited : exists t, plain_run flavor_default copy_ops t copy_doc /\ total_of flavor_default copy_ops = 7 /\ exists (t' : tree nat) l', modified flavor_default t' l' /\ fits flavor_default t' /\ tree_len t' = 3%nat.
Proof.
  exists (tree_so_far flavor_default copy_ops). split; [exact copy_plain|]. split; [vm_compute; reflexivity|].
  assert (M : made flavor_default (tree_so_far flavor_default copy_ops) copy_doc).
  { apply (made_finished flavor_default copy_ops). exact (proj1 (proj2 copy_plain)). repeat constructor; discriminate. }
  assert (P : pointers flavor_default [1%nat]) by (intros i [<-|[]]; vm_compute; reflexivity).
  destruct (modify 20 flavor_default [1%nat] (tree_so_far flavor_default copy_ops)) as [t2|e|] eqn:E2; [|exfalso; vm_compute in E2; discriminate|exfalso; vm_compute in E2; discriminate].
  destruct (C58_document _ _ _ _ _ _ _ M P E2) as (l' & M2 & _). exists t2, l'. split; auto. vm_compute in E2. injection E2 as <-. split; vm_compute; reflexivity.
Qed.
