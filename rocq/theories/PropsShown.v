(** Property theorems: equality, [print] and [Debug] of every tree from a builder, also with misused checkpoints (C69). *)
From Coq Require Import Lia Permutation.
From Verif Require Import Base Pointer Index Tree Builder Hist Node Iter Query Print Spec SpecReads SpecShape SpecTour SpecEq SpecShown Rep Enum Walk AllHist AllPlaced PropsTree PropsSafe PropsFused PropsEq
  PropsDebug AllReads Demo PropsMisuse Tour PropsTour.
Open Scope nat_scope.

Lemma shown_depths T F (ops : list (op T)) l : vec_flavor F -> let t := tree_so_far F ops in fits F t -> reads t (tree_first t) l ->
  exists items, enumerates (walk_depths_next F (t_nodes t)) (tree_walk t) items /\
    map (fun i => (fst i, view (snd i))) items = map (fun i => (fst i, rview (snd i))) (shown t l) /\ length items <= tree_len t.
Proof.
  intros HF t Hf Hl. destruct (C67_walk T F ops l HF Hf Hl) as (_ & (items & A & B) & _). exists items. split; auto.
  unfold shown. rewrite map_map. split; [exact B|].
  destruct (placed_reads _ _ (run_placed F HF ops)) as (_ & _ & Hp). specialize (Hp l Hl). apply Permutation_length in Hp. rewrite map_length, seq_length in Hp.
  assert (E : length items = length (map snd (filter downwards (tour (named t) l)))).
  { rewrite <- (map_length (fun i => (fst i, view (snd i))) items), B, !map_length. auto. }
  rewrite E. change (tree_len t) with (tree_len (b_tree (w_builder (fst (run F world_new ops))))). rewrite <- Hp.
  pose proof (tour_order (named t) l Next 0%Z ltac:(discriminate)) as G. unfold tour. clear -G. induction G; simpl; lia.
Qed.

(** ** What is shown tells which nodes have children *)
Fixpoint flow {T} (vs : list (Z * rose T)) (z : Z) : Prop :=
  match vs with
  | [] => True
  | (d, x) :: r =>
    match r with
    | [] => r_kids x = [] /\ (z <= d)%Z
    | (d2, _) :: _ => (r_kids x <> [] /\ d2 = d + 1)%Z \/ (r_kids x = [] /\ d2 <= d)%Z
    end /\ flow r z
  end.
Lemma flow_mono T (vs : list (Z * rose T)) z z' : (z' <= z)%Z -> flow vs z -> flow vs z'.
Proof. intros Hz. induction vs as [|[d x] r IH]; simpl; auto. intros [H1 H2]. split; auto. destruct r as [|[d2 y] r]; auto. destruct H1. split; auto. lia. Qed.
Lemma flow_app T (a b : list (Z * rose T)) z z' : flow a z -> flow b z' -> match b with [] => False | (d, _) :: _ => (d <= z)%Z end -> flow (a ++ b) z'.
Proof.
  intros Ha Hb Hd. induction a as [|[d x] a IH]; auto. destruct Ha as [H1 H2]. cbn [app flow]. split; [|auto]. destruct a as [|[d2 y] a]; auto.
  simpl. destruct b as [|[d2 y] b]; [destruct Hd|]. right. destruct H1. split; auto. lia.
Qed.
Lemma tour_flow T p n : forall (l : list (rose T)) e d, size_l l <= n -> e <> Up -> l <> [] ->
  let '(tr, (_, d')) := tour_row p e d l in
  let vs := map (fun v => (fst (fst v), snd v)) (filter downwards tr) in
  flow vs d' /\ match vs with [] => False | (d0, _) :: _ => d0 = d end.
Proof.
  induction n as [|n IH]; intros [|x l] e d Hn He Hl; try congruence; rewrite size_l_cons, size_eq in Hn; [lia|].
  rewrite tour_row_cons.
  assert (X : let '(tr, (_, d')) := tour_from p e d x in let vs := map (fun v => (fst (fst v), snd v)) (filter downwards tr) in flow vs d' /\ match vs with [] => False | (d0, _) :: _ => d0 = d end).
  { rewrite tour_from_eq. destruct (r_kids x) as [|y ks] eqn:Ek.
    - assert (downwards (d, e, x) = true) by (destruct e; auto; congruence). simpl filter. rewrite H. simpl. rewrite Ek. repeat split; auto. lia.
    - specialize (IH (y :: ks) Down (d + 1)%Z ltac:(lia) ltac:(discriminate) ltac:(discriminate)). destruct (tour_row p Down (d + 1)%Z (y :: ks)) as [tr [at_ d']]. cbv zeta in IH. destruct IH as [IH1 IH2].
      assert (D : downwards (d, e, x) = true) by (destruct e; auto; congruence).
      assert (G : flow ((d, x) :: map (fun v => (fst (fst v), snd v)) (filter downwards tr)) d').
      { cbn [flow]. split; auto. destruct (map _ (filter downwards tr)) as [|[d2 y2] r]; [destruct IH2|]. left. split; [congruence|auto]. }
      destruct (opt_nat_eqb at_ (Some (r_id x))); cbv zeta.
      + cbn [filter]. rewrite D, filter_app. change (filter downwards [(d', Up, x)]) with (@nil (Z * event * rose T)). rewrite app_nil_r. cbn [map fst snd]. auto.
      + cbn [filter]. rewrite D. cbn [map fst snd]. auto. }
  destruct (tour_from p e d x) as [tr [at_ d']]. cbv zeta in X. destruct X as [X1 X2]. destruct (opt_nat_eqb at_ (Some (r_id x))); [|auto].
  destruct l as [|y l]; [split; auto; eapply flow_mono; [|exact X1]; lia|].
  specialize (IH (y :: l) Next d' ltac:(lia) ltac:(discriminate) ltac:(discriminate)). destruct (tour_row p Next d' (y :: l)) as [tr' [at' d'']]. cbv zeta in IH |- *. destruct IH as [IH1 IH2].
  rewrite filter_app, map_app. split.
  - eapply flow_app; eauto. destruct (map _ (filter downwards tr')) as [|[d2 y2] r]; auto. lia.
  - destruct (map _ (filter downwards tr)) as [|[d2 y2] r]; [destruct X2|auto].
Qed.
Lemma shown_flow T (t : tree T) l : exists z, flow (shown t l) z.
Proof.
  unfold shown, tour. destruct l as [|x l]; [exists 0%Z; simpl; auto|]. pose proof (tour_flow T (named t) (size_l (x :: l)) (x :: l) Next 0%Z (le_n _) ltac:(discriminate) ltac:(discriminate)) as G.
  destruct (tour_row (named t) Next 0%Z (x :: l)) as [tr [at_ d']]. cbv zeta in G. exists d'. apply G.
Qed.
Lemma flow_kids T (a : list (Z * rose T)) : forall (b : list (Z * rose T)) z z', flow a z -> flow b z' -> map fst a = map fst b -> map (fun i => has_kids (snd i)) a = map (fun i => has_kids (snd i)) b.
Proof.
  induction a as [|[d x] a IH]; intros [|[d' x'] b] z z' Ha Hb E; try discriminate; auto. cbn [map fst] in E. injection E as -> E.
  destruct Ha as [H1 H2], Hb as [H1' H2']. cbn [map snd]. rewrite (IH _ _ _ H2 H2' E). f_equal. unfold has_kids.
  destruct a as [|[d2 y] a], b as [|[d2' y'] b]; try discriminate.
  - destruct H1 as [-> _], H1' as [-> _]. auto.
  - cbn [map fst] in E. injection E as -> E. destruct H1 as [[H1 ->]|[H1 L1]], H1' as [[H1' E1']|[H1' L1']]; try lia.
    + destruct (r_kids x), (r_kids x'); congruence.
    + rewrite H1, H1'. auto.
Qed.

(** ** C69 *)

Lemma equal_items T (eqT : T -> T -> bool) F F' (t t' : tree T) l l' items items' :
  enumerates (walk_depths_next F (t_nodes t)) (tree_walk t) items -> map (fun i => (fst i, view (snd i))) items = map (fun i => (fst i, rview (snd i))) (shown t l) -> length items <= tree_len t ->
  enumerates (walk_depths_next F' (t_nodes t')) (tree_walk t') items' -> map (fun i => (fst i, view (snd i))) items' = map (fun i => (fst i, rview (snd i))) (shown t' l') ->
  exists b, tree_eq F F' eqT t t' = Ok b /\ (b = true <-> show_alike eqT (shown t l) (shown t' l')).
Proof.
  intros A B C A' B'.
  exists (all2 (item_eq eqT) items items'). split.
  - unfold tree_eq. apply iter_eq_all2; auto. lia.
  - rewrite all2_Forall2. unfold show_alike. clear -B B'. revert B B'. generalize (shown t l) (shown t' l'). clear. intros l l' B B'. revert l' items items' B B'.
    induction l as [|[d x] l IH]; intros l' [|[d1 n] items] items' B B'; try discriminate.
    + destruct l' as [|[d' x'] l'], items' as [|[d1' n'] items']; try discriminate; split; intros H; auto; inversion H.
    + destruct l' as [|[d' x'] l'], items' as [|[d1' n'] items']; try discriminate; [split; intros H; inversion H|].
      cbn [map fst snd] in B, B'. injection B as -> _ V1 V2 _ B. injection B' as -> _ V1' V2' _ B'. specialize (IH l' items items' B B').
      split; intros H; inversion H as [|? ? ? ? H1 H2]; subst; constructor; try (apply IH; auto); unfold item_eq, node_eq in *; cbn [fst snd] in *.
      * apply andb_true_iff in H1 as [H1 H3]. apply andb_true_iff in H3 as [H3 H4]. apply Z.eqb_eq in H1. rewrite <- V1, <- V1', <- V2, <- V2'. split; auto. split; auto. unfold span_eqb in H4. apply andb_true_iff in H4 as [H4 H5]. apply N.eqb_eq in H4, H5.
        destruct (node_span n), (node_span n'). simpl in *. congruence.
      * destruct H1 as (-> & H3 & H4). rewrite V1, V1', H3, V2, V2', H4, Z.eqb_refl. unfold span_eqb. rewrite !N.eqb_refl. auto.
Qed.
(** [==] compares what the two walks show, between any two flavors. *)
Theorem C69_equal : forall T (eqT : T -> T -> bool) F F' (ops ops' : list (op T)) l l', vec_flavor F -> vec_flavor F' ->
  let t := tree_so_far F ops in let t' := tree_so_far F' ops' in
  fits F t -> fits F' t' -> reads t (tree_first t) l -> reads t' (tree_first t') l' ->
  exists b, tree_eq F F' eqT t t' = Ok b /\ (b = true <-> show_alike eqT (shown t l) (shown t' l')).
Proof.
  intros T eqT F F' ops ops' l l' HF HF' t t' Hf Hf' Hl Hl'.
  destruct (shown_depths T F ops l HF Hf Hl) as (items & A & B & C). destruct (shown_depths T F' ops' l' HF' Hf' Hl') as (items' & A' & B' & _). fold t in A, B, C. fold t' in A', B'.
  eapply equal_items; eauto.
Qed.
Print Assumptions C69_equal.

Lemma print_items T X F (t : tree T) l (source : span -> option X) items :
  enumerates (walk_depths_next F (t_nodes t)) (tree_walk t) items -> map (fun i => (fst i, view (snd i))) items = map (fun i => (fst i, rview (snd i))) (shown t l) -> length items <= tree_len t ->
  print_with_lookup F t source = Ok (map (printed source) (shown t l)) /\
  debug_tree F t = Ok (map (fun i => (fst i, (r_data (snd i), r_span (snd i)))) (shown t l)).
Proof.
  intros A B C.
  unfold print_with_lookup, debug_tree. destruct (iter_collect_enumerates _ items (tree_walk t) (S (tree_len t)) A) as (s' & -> & _); [lia|].
  split; f_equal; revert B; clear; generalize (shown t l); induction items as [|[k n] items IH]; intros [|[k' x] m] B; try discriminate; auto;
    cbn [map fst snd] in B; injection B as -> _ Ed Es Eh B; cbn [map fst snd]; rewrite (IH _ B); f_equal.
  - unfold printed, print_line. cbn [fst snd]. rewrite Ed, Es, Eh. auto.
  - unfold debug_node. rewrite Ed, Es. auto.
Qed.
(** [print] (with or without source) and [Debug] list what the walk shows. *)
Theorem C69_print : forall T X F (ops : list (op T)) l (source : span -> option X), vec_flavor F -> let t := tree_so_far F ops in
  fits F t -> reads t (tree_first t) l ->
  print_with_lookup F t source = Ok (map (printed source) (shown t l)) /\
  debug_tree F t = Ok (map (fun i => (fst i, (r_data (snd i), r_span (snd i)))) (shown t l)).
Proof.
  intros T X F ops l source HF t Hf Hl. destruct (shown_depths T F ops l HF Hf Hl) as (items & A & B & C). fold t in A, B, C.
  eapply print_items; eauto.
Qed.
Print Assumptions C69_print.

(** So equality is an equivalence relation when the comparison of values is one, and equal trees print alike. *)
Theorem C69_equivalence : forall T (eqT : T -> T -> bool), (forall a b, eqT a b = true <-> a = b) ->
  forall F1 F2 F3 (ops1 ops2 ops3 : list (op T)), vec_flavor F1 -> vec_flavor F2 -> vec_flavor F3 ->
  let t1 := tree_so_far F1 ops1 in let t2 := tree_so_far F2 ops2 in let t3 := tree_so_far F3 ops3 in
  fits F1 t1 -> fits F2 t2 -> fits F3 t3 ->
  tree_eq F1 F1 eqT t1 t1 = Ok true /\
  tree_eq F1 F2 eqT t1 t2 = tree_eq F2 F1 eqT t2 t1 /\
  (tree_eq F1 F2 eqT t1 t2 = Ok true -> tree_eq F2 F3 eqT t2 t3 = Ok true -> tree_eq F1 F3 eqT t1 t3 = Ok true) /\
  (tree_eq F1 F2 eqT t1 t2 = Ok true <-> debug_tree F1 t1 = debug_tree F2 t2) /\
  (forall X (source : span -> option X), tree_eq F1 F2 eqT t1 t2 = Ok true <-> print_with_lookup F1 t1 source = print_with_lookup F2 t2 source).
Proof.
  intros T eqT HE F1 F2 F3 ops1 ops2 ops3 V1 V2 V3 t1 t2 t3 H1 H2 H3.
  destruct (placed_reads _ _ (run_placed F1 V1 ops1)) as (l1 & R1 & _). destruct (placed_reads _ _ (run_placed F2 V2 ops2)) as (l2 & R2 & _). destruct (placed_reads _ _ (run_placed F3 V3 ops3)) as (l3 & R3 & _).
  change (reads t1 (tree_first t1) l1) in R1. change (reads t2 (tree_first t2) l2) in R2. change (reads t3 (tree_first t3) l3) in R3.
  set (see := map (fun i : Z * rose T => (fst i, (r_data (snd i), r_span (snd i))))).
  assert (SA : forall a b, show_alike eqT a b <-> see a = see b).
  { unfold show_alike, see. induction a as [|[d x] a IH]; intros [|[d' x'] b]; split; intros H; try discriminate; try (inversion H; fail); auto.
    - inversion H as [|? ? ? ? (E1 & E2 & E3) E4]; subst. cbn [map fst snd] in *. apply IH in E4. apply HE in E2. rewrite E4, E2, E3, E1. auto.
    - cbn [map fst snd] in H. injection H as -> Hd Hs H. constructor; [|apply IH; auto]. cbn [fst snd]. split; auto. split; auto. apply HE; auto. }
  pose proof (C69_equal T eqT F1 F1 ops1 ops1 l1 l1 V1 V1 H1 H1 R1 R1) as (b11 & E11 & I11).
  pose proof (C69_equal T eqT F1 F2 ops1 ops2 l1 l2 V1 V2 H1 H2 R1 R2) as (b12 & E12 & I12).
  pose proof (C69_equal T eqT F2 F1 ops2 ops1 l2 l1 V2 V1 H2 H1 R2 R1) as (b21 & E21 & I21).
  pose proof (C69_equal T eqT F2 F3 ops2 ops3 l2 l3 V2 V3 H2 H3 R2 R3) as (b23 & E23 & I23).
  pose proof (C69_equal T eqT F1 F3 ops1 ops3 l1 l3 V1 V3 H1 H3 R1 R3) as (b13 & E13 & I13).
  fold t1 in E11, E12, E21, E13, I11, I12, I21, I13. fold t2 in E12, E21, E23, I12, I21, I23. fold t3 in E23, E13, I23, I13.
  rewrite SA in I11, I12, I21, I23, I13. rewrite E11, E12, E21, E23, E13.
  assert (OK : forall b P, (b = true <-> P) -> (@Ok bool b = Ok true <-> P)) by (intros b P <-; split; congruence).
  split; [f_equal; apply I11; auto|]. split; [f_equal; assert (Hs : b12 = true <-> b21 = true) by (rewrite I12, I21; split; auto); destruct b12, b21; auto; [symmetry|]; apply Hs; auto|]. split.
  { intros A B. injection A as ->. injection B as ->. f_equal. apply I13. transitivity (see (shown t2 l2)); [apply I12|apply I23]; auto. }
  split.
  - apply OK. rewrite I12. destruct (C69_print T unit F1 ops1 l1 (fun _ => None) V1 H1 R1) as [_ P1]. destruct (C69_print T unit F2 ops2 l2 (fun _ => None) V2 H2 R2) as [_ P2]. fold t1 in P1. fold t2 in P2. rewrite P1, P2. split; intros E; [f_equal; exact E|injection E; auto].
  - intros X source. apply OK. rewrite I12. destruct (C69_print T X F1 ops1 l1 source V1 H1 R1) as [P1 _]. destruct (C69_print T X F2 ops2 l2 source V2 H2 R2) as [P2 _]. fold t1 in P1. fold t2 in P2. rewrite P1, P2.
    split; intros E.
    + f_equal. destruct (shown_flow T t1 l1) as [z1 Z1]. destruct (shown_flow T t2 l2) as [z2 Z2].
      assert (K : map (fun i => has_kids (snd i)) (shown t1 l1) = map (fun i => has_kids (snd i)) (shown t2 l2)).
      { eapply flow_kids; eauto. apply (f_equal (map fst)) in E. unfold see in E. rewrite !map_map in E. exact E. }
      revert E K. generalize (shown t1 l1) (shown t2 l2). clear. unfold see. induction l as [|[d x] l IH]; intros [|[d' x'] m] E K; try discriminate; auto.
      cbn [map fst snd] in *. injection E as -> Ed Es E. injection K as Ek K. rewrite (IH _ E K). f_equal. unfold printed. cbn [fst snd]. rewrite Ed, Es, Ek. auto.
    + injection E as E. revert E. generalize (shown t1 l1) (shown t2 l2). clear. unfold see. induction l as [|[d x] l IH]; intros [|[d' x'] m] E; try discriminate; auto.
      cbn [map fst snd] in *. injection E as Ed Ev Es _ E. rewrite (IH _ E), Ev, Es. f_equal. f_equal. cbn [fst] in Ed. lia.
Qed.
Print Assumptions C69_equivalence.

(** Equality does not see the nodes that walks miss: a tree of six nodes equals one of five, built as intended. *)
Definition seen_ops : list (op nat) :=
  [OCheckpoint; OTokenWith 2 (Span 0 1); OCheckpoint; OTokenWith 3 (Span 1 2); OCloseAt 1 11; OTokenWith 5 (Span 3 4); OCloseAtWith 0 10 (Span 0 2)].
Theorem C69_nodes_refuted : let t := tree_so_far flavor_default missed_ops in let t' := tree_so_far flavor_default seen_ops in
  builds flavor_default missed_ops t /\ builds flavor_default seen_ops t' /\
  tree_eq flavor_default flavor_default Nat.eqb t t' = Ok true /\ tree_len t = 6 /\ tree_len t' = 5.
Proof. split; [vm_compute; reflexivity|]. split; [vm_compute; reflexivity|]. split; [vm_compute; reflexivity|]. split; vm_compute; reflexivity. Qed.
Print Assumptions C69_nodes_refuted.

(** When every node names the node whose child it is, what is shown is the whole document. *)
Theorem C69_complete : forall T F (ops : list (op T)) l, vec_flavor F -> let t := tree_so_far F ops in
  (forall p s x, In (p, s) (sibling_lists l) -> In x s -> named t (r_id x) = option_map r_id p) -> shown t l = flat_map (preorder_depth 0) l.
Proof. intros T F ops l HF t H. apply (C67_complete T F ops l HF H). Qed.

Example C69_inhabited : let t := tree_so_far flavor_default missed_ops in
  vec_flavor flavor_default /\ fits flavor_default t /\ reads t (tree_first t) missed_doc /\
  map (fun i => (fst i, r_id (snd i))) (shown t missed_doc) = [(0%Z, 2); (1%Z, 0); (1%Z, 4); (2%Z, 1); (1%Z, 5)].
Proof.
  split; [split; auto|]. split; [vm_compute; reflexivity|]. split; [apply (read_reads _ 10); vm_compute; reflexivity|]. vm_compute. reflexivity.
Qed.
