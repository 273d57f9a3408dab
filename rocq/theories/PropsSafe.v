(** Property theorems about ALL histories: any calls in any order, checkpoints
    used at any time and any number of times, also where the documentation
    does not say what happens. *)
From Coq Require Import Lia.
From Verif Require Import Base Pointer Index Tree Builder Hist Node Iter Query Spec Rep Refine Bounds
  AllHist AllWalk StepFacts PropsArith.

(** The tree inside the builder after a history (what [build] would return if no
    node is open). *)
Definition tree_so_far {T} (F : flavor) (ops : list (op T)) : tree T :=
  b_tree (w_builder (run_world F ops)).

Lemma builds_so_far T F (ops : list (op T)) t : builds F ops t -> t = tree_so_far F ops.
Proof.
  unfold builds, build, tree_so_far. destruct (b_parent _); [discriminate|]. intros E; injection E; auto.
Qed.

Lemma run_wok T F (ops : list (op T)) : vec_flavor F -> wok (run_world F ops).
Proof. intros HF. apply run_ok; auto. apply wok_new. Qed.

Lemma run_snoc T F (ops : list (op T)) o :
  run_world F (ops ++ [o]) = fst (step F (run_world F ops) o) /\
  run_outs F (ops ++ [o]) = run_outs F ops ++ [snd (step F (run_world F ops) o)].
Proof.
  unfold run_world, run_outs. rewrite run_app. destruct (run F world_new ops) as [w rs]. simpl.
  destruct (step F w o) as [w' r]. auto.
Qed.

(** ** C38: no hang, no dangling pointer, no internal error *)

(** Every call returns, with success or one of the four documented refusals. *)
Theorem C38_calls_return : forall T F (ops : list (op T)) r,
  vec_flavor F -> In r (run_outs F ops) ->
  match r with
  | RUnit | RNode _ | RCheckpoint | RNoHandle => True
  | RErr CloseError | RErr CloseAtError | RErr Overflow => True
  | RErr BuildError | RErr (MissingNode _) | RErr FlavorError | RDiverge => False
  end.
Proof.
  intros T F ops r HF Hr.
  assert (G : forall (ops : list (op T)) w, wok w -> forall r, In r (snd (run F w ops)) -> fine_out r /\ r <> RErr BuildError).
  { clear ops r Hr. induction ops as [|o ops IH]; simpl; intros w H r; [tauto|].
    destruct (step_ok F HF w o H) as [A B]. 
    assert (B' : snd (step F w o) <> RErr BuildError).
    { destruct w as [h b env]. destruct o; simpl.
      - unfold open. destruct (insert_datas F b d (span_point (b_cursor b))) as [[_ ->]|[(_ & b' & -> & _)|(_ & b' & -> & _)]]; discriminate.
      - unfold open_with. destruct (insert_datas F b d sp) as [[_ ->]|[(_ & b' & -> & _)|(_ & b' & -> & _)]]; discriminate.
      - unfold close. destruct (b_parent b); [|discriminate]. cbv zeta. destruct (nth_error _ _); [|discriminate].
        destruct (l_parent _); [|discriminate]. destruct (nth_error _ _); discriminate.
      - unfold token. destruct (len_is_empty F len).
        + destruct (insert_datas F b d (Span (b_cursor b) (b_cursor b))) as [[_ ->]|[(_ & b' & -> & _)|(_ & b' & -> & _)]]; discriminate.
        + destruct (ix_checked_add_len _ _ _) as [c|]; [|discriminate]. cbv zeta.
          match goal with |- context [insert F d ?s ?x] =>
            destruct (insert_datas F x d s) as [[_ ->]|[(_ & b' & -> & _)|(_ & b' & -> & _)]]; try discriminate end.
          destruct (tree_push_index _ _ _ _); discriminate.
      - unfold token_empty, token. destruct (len_is_empty F len_EMPTY).
        + destruct (insert_datas F b d (Span (b_cursor b) (b_cursor b))) as [[_ ->]|[(_ & b' & -> & _)|(_ & b' & -> & _)]]; discriminate.
        + destruct (ix_checked_add_len _ _ _) as [c|]; [|discriminate]. cbv zeta.
          match goal with |- context [insert F d ?s ?x] =>
            destruct (insert_datas F x d s) as [[_ ->]|[(_ & b' & -> & _)|(_ & b' & -> & _)]]; try discriminate end.
          destruct (tree_push_index _ _ _ _); discriminate.
      - unfold token_with. destruct (insert_datas F b d sp) as [[_ ->]|[(_ & b' & -> & _)|(_ & b' & -> & _)]]; try discriminate.
        cbv zeta. destruct (tree_push_index _ _ _ _); discriminate.
      - unfold checkpoint. destruct (pointer_new _ _); [|discriminate]. destruct (b_checkpoint b); [|discriminate].
        destruct (nth_error h _); [|discriminate]. destruct (_ && _); discriminate.
      - destruct (nth_error env k) as [a|] eqn:Ek; [|discriminate]. destruct H as [H He]. simpl in H, He.
        destruct (nth_in h a) as [c Ec]; [apply He; eapply nth_error_In; eauto|].
        unfold close_at. destruct (close_at_cases F HF h b a c d None H Ec)
          as [(e & -> & [[-> _]|[-> _]])|[(b' & -> & _)|(l & h' & b' & _ & _ & -> & _)]]; discriminate.
      - destruct (nth_error env k) as [a|] eqn:Ek; [|discriminate]. destruct H as [H He]. simpl in H, He.
        destruct (nth_in h a) as [c Ec]; [apply He; eapply nth_error_In; eauto|].
        unfold close_at_with. destruct (close_at_cases F HF h b a c d (Some sp) H Ec)
          as [(e & -> & [[-> _]|[-> _]])|[(b' & -> & _)|(l & h' & b' & _ & _ & -> & _)]]; discriminate.
      - discriminate. }
    destruct (step F w o) as [w1 r1]. simpl in A, B, B'.
    specialize (IH w1 A). destruct (run F w1 ops) as [w2 rs]. simpl in *. intros [<-|Hr]; auto. }
  destruct (G ops world_new (wok_new) r Hr) as [A B]. destruct r as [| | |[]| |]; simpl in *; auto.
Qed.
Print Assumptions C38_calls_return.

(** Every stored pointer refers to a node of the tree; [next] and [prev] are
    inverse to each other; [next] leads to a node added later. *)
Definition links_in_bounds {T} (t : tree T) : Prop := forall i l, nth_error (t_nodes t) i = Some l ->
  (forall p, In (Some p) [l_parent l; l_prev l; l_next l; l_first l; l_last l; t_first t; t_last t] ->
     p < tree_len t) /\
  (forall y, l_next l = Some y -> i < y /\ exists ly, nth_error (t_nodes t) y = Some ly /\ l_prev ly = Some i) /\
  (forall y, l_prev l = Some y -> y < i /\ exists ly, nth_error (t_nodes t) y = Some ly /\ l_next ly = Some i).

Lemma wok_links T (w : world T) : wok w -> links_in_bounds (b_tree (w_builder w)).
Proof.
  intros [(lo & hi & cap & stk & HB & _) _] i l E.
  pose proof (bi_table _ _ _ _ _ HB) as HT. specialize (HT _ _ E).
  split; [|split].
  - simpl. intros p [H|[H|[H|[H|[H|[H|[H|[]]]]]]]].
    + apply (li_parent _ _ _ _ _ _ HT) in H. apply H.
    + apply (li_prev _ _ _ _ _ _ HT) in H. destruct H as (_ & _ & _ & ly & H & _). eapply nth_lt; eauto.
    + apply (li_next _ _ _ _ _ _ HT) in H. destruct H as (_ & _ & _ & ly & H & _). eapply nth_lt; eauto.
    + apply (li_first _ _ _ _ _ _ HT) in H. apply H.
    + apply (li_last _ _ _ _ _ _ HT) in H. apply H.
    + apply (bi_first _ _ _ _ _ HB) in H. apply H.
    + apply (bi_last _ _ _ _ _ HB) in H. apply H.
  - intros y H. apply (li_next _ _ _ _ _ _ HT) in H. tauto.
  - intros y H. apply (li_prev _ _ _ _ _ _ HT) in H. tauto.
Qed.

Theorem C38_links_in_bounds : forall T F (ops : list (op T)) (t : tree T),
  vec_flavor F -> t = tree_so_far F ops -> links_in_bounds t.
Proof. intros T F ops t HF ->. apply wok_links, run_wok; auto. Qed.
Print Assumptions C38_links_in_bounds.

(** No node is its own ancestor, and parents are found by finitely many steps;
    all iterators of the library end, from every node, after at most as many items as there are
    nodes (twice for events); and so do the search loops. *)
Definition ends {S A : Type} (nxt : S -> result (S * option A)) (s : S) (n : nat) : Prop :=
  exists items, enumerates nxt s items /\ length items <= n.


(** A node is only handed out while there is room. *)
Lemma node_room T F (w : world T) o id : snd (step F w o) = RNode id -> is_full F (w_builder w) = false.
Proof.
  destruct w as [h b env]. cbn [w_builder].
  assert (HI : forall (b : builder T) d sp b' i, insert F d sp b = (b', Ok i) -> is_full F b = false).
  { clear. intros b d sp b' i E. destruct (insert_datas F b d sp) as [[Hf E']|[(Hf & b1 & E' & D & _)|(_ & b1 & E' & (c & Ec) & _)]]; auto; congruence. }
  assert (HT : forall d len, out_node (snd (token F d len b)) = RNode id -> is_full F b = false).
  { intros d len. unfold token. cbv zeta. destruct (len_is_empty F len) eqn:El.
    - destruct (insert F d _ b) as [b1 [i|e|]] eqn:Ei; simpl; try discriminate. intros _. eapply HI; eauto.
    - destruct (ix_checked_add_len _ _ _) as [c|]; [|discriminate].
      match goal with |- context [insert F d ?s ?x] => destruct (insert F d s x) as [b1 [i|e|]] eqn:Ei end; simpl; try discriminate.
      intros _. apply HI in Ei. auto. }
  assert (HC : forall a d osp, out_node (snd (close_at_gen F a d osp h b)) = RNode id -> is_full F b = false).
  { intros a d osp. unfold close_at_gen. destruct (nth_error h a); [|discriminate]. destruct (negb _); [discriminate|].
    rewrite pointer_new_full. unfold is_full. destruct (_ <=? _)%N; [discriminate|auto]. }
  destruct o; simpl; try discriminate.
  - unfold open. destruct (insert F d _ b) as [b1 [i|e|]] eqn:Ei; simpl; try discriminate. intros _. eapply HI; eauto.
  - unfold open_with. destruct (insert F d _ b) as [b1 [i|e|]] eqn:Ei; simpl; try discriminate. intros _. eapply HI; eauto.
  - destruct (close b) as [b1 [i|e|]]; discriminate.
  - specialize (HT d len). destruct (token F d len b). auto.
  - specialize (HT d len_EMPTY). unfold token_empty. destruct (token F d len_EMPTY b). auto.
  - unfold token_with. destruct (insert F d _ b) as [b1 [i|e|]] eqn:Ei; simpl; try discriminate. intros _. eapply HI; eauto.
  - destruct (checkpoint F h b) as [[h' b'] [|e|]]; discriminate.
  - destruct (nth_error env k) as [a|]; [|discriminate]. specialize (HC a d None). unfold close_at. 
    destruct (close_at_gen F a d None h b) as [[h' b'] r]. auto.
  - destruct (nth_error env k) as [a|]; [|discriminate]. specialize (HC a d (Some sp)). unfold close_at_with. 
    destruct (close_at_gen F a d (Some sp) h b) as [[h' b'] r]. auto.
Qed.

Theorem C12_size : forall T F (ops : list (op T)), vec_flavor F ->
  (N.of_nat (tree_len (tree_so_far F ops)) <= int_max F (fl_width F))%N.
Proof.
  intros T F ops HF. rewrite <- (rev_involutive ops). induction (rev ops) as [|o l IH]; simpl; [simpl; lia|].
  unfold tree_so_far in *. rewrite (proj1 (run_snoc T F (rev l) o)).
  destruct (step_ok F HF _ o (run_wok T F (rev l) HF)) as [_ Hf]. pose proof (step_grows F HF _ o Hf) as G.
  pose proof (node_room T F (run_world F (rev l)) o) as R.
  set (w := run_world F (rev l)) in *. clearbody w.
  rewrite <- len_datas in *. unfold w_datas in G. destruct (step F w o) as [w' r]. cbn [fst snd] in *.
  destruct r as [|id| | | |]; cbn [grows] in G; try (rewrite G; exact IH).
  destruct G as (-> & d & _ & G). rewrite G, app_length. specialize (R _ eq_refl). unfold is_full in R.
  rewrite <- len_datas in R. apply N.leb_gt in R. simpl. lia.
Qed.
Print Assumptions C12_size.

Lemma so_far_id T F (ops : list (op T)) i n : vec_flavor F -> fits F (tree_so_far F ops) ->
  tree_get (tree_so_far F ops) i = Some n -> fst n = i /\ node_id F n = i.
Proof.
  intros HF Hfit E. unfold tree_get, node_at in E.
  destruct (nth_error (t_nodes (tree_so_far F ops)) i) as [l|] eqn:El; [|discriminate]. injection E as <-.
  split; auto. pose proof (C12_size T F ops HF) as HB. pose proof (fits_usize F _ Hfit) as HU. apply nth_lt in El.
  unfold tree_len in HB. apply (node_id_spec F (i, l)); simpl; lia.
Qed.

(** Every iterator that starts at node [n], or at the tree, ends. *)
Definition every_iterator_ends {T} (F : flavor) (t : tree T) (n : node T) : Prop :=
  let N := tree_len t in
  let ns := t_nodes t in
  ends (total (walk_events_next F ns)) (node_walk F n) (2 * N) /\
  ends (total (walk_events_next F ns)) (node_walk_from F n) (2 * N) /\
  ends (total (walk_events_next F ns)) (tree_walk t) (2 * N) /\
  ends (walk_next F ns) (node_walk F n) N /\
  ends (walk_next F ns) (node_walk_from F n) N /\
  ends (walk_next F ns) (tree_walk t) N /\
  ends (walk_depths_next F ns) (node_walk F n) N /\
  ends (walk_depths_next F ns) (node_walk_from F n) N /\
  ends (walk_depths_next F ns) (tree_walk t) N /\
  ends (inside_next F ns) (node_walk F n) N /\
  ends (inside_next F ns) (node_walk_from F n) N /\
  ends (inside_next F ns) (tree_walk t) N /\
  ends (total (siblings_next ns)) (node_siblings n) N /\
  ends (total (ancestors_next ns)) (node_ancestors n) N /\
  ends (total (children_next ns)) (node_children n) N /\
  ends (total (children_next_back ns)) (node_children n) N /\
  ends (total (children_next ns)) (tree_children t) N /\
  ends (total (children_next_back ns)) (tree_children t) N.

Lemma iterators_end T F (w : world T) i n : let t := b_tree (w_builder w) in
  wok w -> node_id F n = i -> tree_get t i = Some n -> every_iterator_ends F t n.
Proof.
  intros t [(lo & hi & cap & stk & HB & _) _] Eid E. unfold every_iterator_ends. set (N := tree_len t). set (ns := t_nodes t).
  pose proof (bi_table _ _ _ _ _ HB) as HT. unfold tree_get, node_at in E.
  fold t in HT, E. fold ns in HT, E.
  destruct (nth_error ns i) as [l|] eqn:El; [|discriminate]. injection E as <-.
  assert (Hlt : i < length ns) by (eapply nth_lt; eauto).
  assert (Wn : winv ns (node_walk F (i, l))) by (unfold winv, node_walk, walk_new; simpl; rewrite Eid; auto).
  assert (Wf : winv ns (node_walk_from F (i, l))) by (unfold winv, node_walk_from, walk_new; simpl; rewrite Eid; auto).
  assert (Wt : winv ns (tree_walk t)).
  { unfold winv, tree_walk, walk_new. simpl. pose proof (bi_first _ _ _ _ _ HB) as H1. fold t in H1.
    destruct (t_first t) as [x|]; simpl; auto. }
  assert (Ha : at_ ns (Some (i, l))) by (simpl; auto).
  unfold ends, N, tree_len. fold ns.
  repeat match goal with |- _ /\ _ => split end;
    try (eapply events_end; eauto; fail); try (eapply walk_ends; eauto; fail);
    try (eapply depths_end; eauto; fail); try (eapply inside_ends; eauto; fail).
  - eapply siblings_end; eauto.
  - eapply ancestors_end; eauto.
  - eapply children_end; eauto.
  - eapply children_back_end; eauto. intros x Hx. simpl in Hx. eapply (li_last _ _ _ _ _ _ (HT _ _ El)); eauto.
  - eapply children_end; eauto.
  - eapply children_back_end; eauto. intros x Hx. simpl in Hx. apply (bi_last _ _ _ _ _ HB). auto.
Qed.

Theorem C38_iterators_end : forall T F (ops : list (op T)) (t : tree T) i n,
  vec_flavor F -> t = tree_so_far F ops -> fits F t -> tree_get t i = Some n ->
  every_iterator_ends F t n.
Proof.
  intros T F ops t i n HF -> Hfit E. destruct (so_far_id T F ops i n HF Hfit E) as [Ei Eid].
  apply (iterators_end T F (run_world F ops) i n); auto. apply run_wok; auto.
Qed.
Print Assumptions C38_iterators_end.

(** [find_preceding], for any predicate, and range queries, for any search result, return. *)
Lemma searches_end T F (w : world T) i n : let t := b_tree (w_builder w) in
  wok w -> tree_get t i = Some n ->
  (forall St p (st : St), exists st' o, find_preceding_mut (t_nodes t) p st n = Ok (st', o)) /\
  (forall bs s e, exists o, node_with_range F bs t s e = Ok o).
Proof.
  intros t [(lo & hi & cap & stk & HB & _) _] E.
  pose proof (bi_table _ _ _ _ _ HB) as HT. fold t in HT.
  split.
  - unfold tree_get, node_at in E. destruct (nth_error (t_nodes t) i) as [l|] eqn:El; [|discriminate]. injection E as <-.
    intros St p st. destruct (find_preceding_ends _ _ _ _ HT p st i l El) as (st' & o & Eo & _). eauto.
  - intros bs s e. unfold node_with_range. destruct (ix_from_usize F s) as [s'|]; [|eauto]. destruct (ix_from_usize F e) as [e'|]; [|eauto].
    unfold node_with_span_internal. destruct (nth_error (t_indexes t) _) as [[x id]|]; [|eauto].
    unfold tree_get, node_at. destruct (nth_error (t_nodes t) id) as [l|] eqn:El; [|eauto].
    destruct (climb_ends _ _ _ _ HT e' (S (tree_len t)) id l El) as (r & -> & _); [|eauto].
    pose proof (ups_n (t_nodes t) lo id). unfold tree_len. lia.
Qed.

Theorem C38_searches_end : forall T F (ops : list (op T)) (t : tree T) i n,
  vec_flavor F -> t = tree_so_far F ops -> tree_get t i = Some n ->
  (forall St p (st : St), exists st' o, find_preceding_mut (t_nodes t) p st n = Ok (st', o)) /\
  (forall bs s e, exists o, node_with_range F bs t s e = Ok o).
Proof.
  intros T F ops t i n HF -> E. apply (searches_end T F (run_world F ops) i); auto. apply run_wok; auto.
Qed.
Print Assumptions C38_searches_end.

(** The misuse of C05 is inside the scope of these theorems. *)
Example C38_inhabited :
  let ops := [OCheckpoint; OToken 1 1%N; OCheckpoint; OToken 2 1%N; OCloseAt 0 10; OCloseAt 1 11; OToken 3 1%N; OClose] in
  run_outs flavor_default ops = [RCheckpoint; RNode 0; RCheckpoint; RNode 1; RNode 2; RNode 3; RNode 4; RErr CloseError] /\
  ~ well_used flavor_default ops /\ tree_len (tree_so_far flavor_default ops) = 5.
Proof. vm_compute. auto. Qed.

(** ** C10: identifiers *)

(** The value found at an identifier in the tree so far. *)
Definition value_at {T} (t : tree T) (id : nat) : option T := option_map node_value (tree_get t id).

Lemma value_at_datas T (t : tree T) id : value_at t id = nth_error (datas (t_nodes t)) id.
Proof.
  unfold value_at, tree_get, node_at, datas, node_value. rewrite nth_error_map.
  destruct (nth_error (t_nodes t) id); reflexivity.
Qed.

(** A call that returns an identifier returns a fresh one, the number of nodes so far, under
    which its value is found; a call that does not, adds no node. *)
Theorem C10_fresh : forall T F (ops : list (op T)) o, vec_flavor F ->
  let t := tree_so_far F ops in
  let t' := tree_so_far F (ops ++ [o]) in
  let r := snd (step F (run_world F ops) o) in
  match r with
  | RNode id => id = tree_len t /\ tree_len t' = S (tree_len t) /\
                op_value o <> None /\ value_at t' id = op_value o
  | _ => tree_len t' = tree_len t
  end.
Proof.
  intros T F ops o HF t t' r. subst t t' r.
  destruct (step_ok F HF _ o (run_wok T F ops HF)) as [_ Hf]. pose proof (step_grows F HF _ o Hf) as G.
  unfold tree_so_far. rewrite (proj1 (run_snoc T F ops o)).
  set (w := run_world F ops) in *. clearbody w. destruct (step F w o) as [w' r]. cbn [fst snd] in *.
  rewrite value_at_datas || idtac. rewrite <- !len_datas. unfold w_datas in G.
  destruct r as [|id| | | |]; cbn [grows] in G; try (rewrite G; reflexivity).
  destruct G as (-> & d & Hd & G). rewrite value_at_datas. fold (b_datas (w_builder w')).
  rewrite G, app_length, Hd. simpl. split; [auto|]. split; [lia|]. split; [discriminate|].
  rewrite nth_error_app2 by lia. rewrite Nat.sub_diag. auto.
Qed.
Print Assumptions C10_fresh.

(** Whatever is called later, an identifier keeps its value. *)
Theorem C10_stable : forall T F (ops more : list (op T)) id, vec_flavor F ->
  id < tree_len (tree_so_far F ops) ->
  value_at (tree_so_far F (ops ++ more)) id = value_at (tree_so_far F ops) id /\
  value_at (tree_so_far F ops) id <> None.
Proof.
  intros T F ops more id HF Hid. rewrite !value_at_datas. split.
  - unfold tree_so_far, run_world in *. rewrite run_app.
    pose proof (run_wok T F ops HF) as Hw. unfold run_world in Hw.
    destruct (run F world_new ops) as [w rs]. cbn [fst] in *.
    destruct (run_datas F HF more w Hw) as (D & E & _). destruct (run F w more) as [w' rs']. cbn [fst] in *.
    unfold w_datas, b_datas in E. rewrite E. apply nth_error_app1. unfold datas. rewrite map_length. exact Hid.
  - apply nth_error_Some. unfold datas. rewrite map_length. exact Hid.
Qed.
Print Assumptions C10_stable.

Lemma nth_seq_map A (l : list A) : forall p, map (fun i => nth_error (p ++ l) i) (seq (length p) (length l)) = map Some l.
Proof.
  induction l as [|x l IH]; intros p; simpl; auto. f_equal.
  - rewrite nth_error_app2, Nat.sub_diag by lia. auto.
  - replace (p ++ x :: l) with ((p ++ [x]) ++ l) by (rewrite <- app_assoc; auto).
    rewrite <- (IH (p ++ [x])). rewrite app_length. simpl. rewrite Nat.add_1_r. auto.
Qed.

(** The nodes of the tree so far are the successful insertions, in order. *)
Theorem C10_values : forall T F (ops : list (op T)), vec_flavor F ->
  map (fun id => value_at (tree_so_far F ops) id) (seq 0 (tree_len (tree_so_far F ops))) =
    map Some (inserted ops (run_outs F ops)).
Proof.
  intros T F ops HF.
  assert (G : forall (ops : list (op T)) w, wok w -> w_datas (fst (run F w ops)) = w_datas w ++ inserted ops (snd (run F w ops))).
  { clear ops. intros ops. induction ops as [|o ops IH]; intros w Hw; simpl; [rewrite app_nil_r; auto|].
    destruct (step_ok F HF w o Hw) as [Hw1 Hf]. pose proof (step_grows F HF w o Hf) as G.
    destruct (step F w o) as [w1 r1]. cbn [fst snd] in *. specialize (IH w1 Hw1).
    destruct (run F w1 ops) as [w2 rs]. cbn [fst snd] in *. rewrite IH.
    destruct r1 as [|id| | | |]; cbn [grows] in G; simpl; try (rewrite G; reflexivity).
    destruct G as (_ & d & -> & ->). rewrite <- app_assoc. auto. }
  specialize (G ops world_new wok_new). 
  assert (G' : inserted ops (run_outs F ops) = datas (t_nodes (tree_so_far F ops))) by (symmetry; exact G).
  rewrite G'.
  rewrite (map_ext _ _ (value_at_datas T (tree_so_far F ops))). unfold tree_len.
  replace (length (t_nodes (tree_so_far F ops))) with (length (datas (t_nodes (tree_so_far F ops)))) by apply map_length.
  clear G G'. generalize (datas (t_nodes (tree_so_far F ops))). intros l.
  apply (nth_seq_map T l []).
Qed.
Print Assumptions C10_values.

(** [id] is the inverse of [get]. *)
Theorem C10_id : forall T F (ops : list (op T)) t, vec_flavor F -> t = tree_so_far F ops -> fits F t ->
  (forall i n, tree_get t i = Some n -> node_id F n = i /\ tree_get t (node_id F n) = Some n) /\
  (forall i, (exists n, tree_get t i = Some n) <-> i < tree_len t).
Proof.
  intros T F ops t HF -> Hfit. split.
  - intros i n E. destruct (so_far_id T F ops i n HF Hfit E) as [_ E2]. rewrite E2. auto.
  - intros i. unfold tree_get, node_at. split.
    + intros [n E]. destruct (nth_error _ i) eqn:El; [|discriminate]. eapply nth_lt; eauto.
    + intros H. destruct (nth_in _ i H) as [l ->]. eauto.
Qed.
Print Assumptions C10_id.

Example C10_inhabited :
  let ops := [OOpen 1; OCheckpoint; OToken 2 3%N; OCloseAt 0 7; OClose; OClose] in
  run_outs flavor_default ops = [RNode 0; RCheckpoint; RNode 1; RNode 2; RUnit; RErr CloseError] /\
  inserted ops (run_outs flavor_default ops) = [1; 2; 7] /\
  value_at (tree_so_far flavor_default ops) 2 = Some 7.
Proof. vm_compute. auto. Qed.

(** ** C12: capacity *)

(** There is room for one more node. *)
Definition room {T} (F : flavor) (t : tree T) : Prop :=
  (N.of_nat (tree_len t) < int_max F (fl_width F))%N.

Lemma room_full T F (b : builder T) : (is_full F b = false <-> room F (b_tree b)) /\ (is_full F b = true <-> ~ room F (b_tree b)).
Proof.
  unfold is_full, room. destruct (N.leb_spec (int_max F (fl_width F)) (N.of_nat (tree_len (b_tree b)))); split; split; intros; try lia; auto; discriminate.
Qed.

(** open, open_with, token_with, token_empty and checkpoint: succeed exactly when there is room. *)
Theorem C12_inserting : forall T F (w : world T) o, vec_flavor F ->
  match o with OOpen _ | OOpenWith _ _ | OTokenWith _ _ | OTokenEmpty _ => True | _ => False end ->
  (room F (b_tree (w_builder w)) -> snd (step F w o) = RNode (tree_len (b_tree (w_builder w)))) /\
  (~ room F (b_tree (w_builder w)) -> step F w o = (w, RErr Overflow)).
Proof.
  intros T F [h b env] o HF Ho. cbn [w_builder]. destruct (room_full T F b) as [R1 R2]. rewrite <- R2, <- R1.
  destruct o; destruct Ho; simpl.
  - unfold open. destruct (insert_vec F HF b d (span_point (b_cursor b))) as [[-> ->]|(-> & b' & -> & _)]; split; auto; discriminate.
  - unfold open_with. destruct (insert_vec F HF b d sp) as [[-> ->]|(-> & b' & -> & _)]; split; auto; discriminate.
  - unfold token_empty, token, len_EMPTY.
    assert (E : len_is_empty F 0 = true) by (unfold len_is_empty; destruct (fl_index F); auto). rewrite !E. cbv zeta.
    destruct (insert_vec F HF b d (Span (b_cursor b) (b_cursor b))) as [[-> ->]|(-> & b' & -> & _)]; split; auto; discriminate.
  - unfold token_with. destruct (insert_vec F HF b d sp) as [[-> ->]|(-> & b' & -> & _)]; split; auto; try discriminate.
    intros _. cbv zeta. destruct (push_index_cases F HF (b_tree b') (s_start sp) (tree_len (b_tree b))) as (t' & E & _).
    cbn [b_tree set_b_sibling]. rewrite E. reflexivity.
Qed.
Print Assumptions C12_inserting.

Theorem C12_checkpoint : forall T F (w : world T),
  (room F (b_tree (w_builder w)) -> snd (step F w OCheckpoint) = RCheckpoint) /\
  (~ room F (b_tree (w_builder w)) -> step F w OCheckpoint = (w, RErr Overflow)).
Proof.
  intros T F [h b env]. cbn [w_builder]. destruct (room_full T F b) as [R1 R2]. rewrite <- R2, <- R1.
  simpl. unfold checkpoint. rewrite pointer_new_full. unfold is_full. destruct (_ <=? _)%N; split; try discriminate; auto.
  intros _. destruct (b_checkpoint b) as [a|]; [|reflexivity]. destruct (nth_error h a); [|reflexivity]. destruct (_ && _); reflexivity.
Qed.
Print Assumptions C12_checkpoint.

(** token: succeeds exactly when there is room and the cursor can move. *)
Theorem C12_token : forall T F (w : world T) d len, vec_flavor F -> target_ok F -> usize_ok F len ->
  (b_cursor (w_builder w) <= ix_max F)%N ->
  let fits_index := fl_index F = IxEmpty \/ (b_cursor (w_builder w) + len <= ix_max F)%N in
  (room F (b_tree (w_builder w)) /\ fits_index ->
     snd (step F w (OToken d len)) = RNode (tree_len (b_tree (w_builder w)))) /\
  (~ room F (b_tree (w_builder w)) \/ ~ fits_index -> snd (step F w (OToken d len)) = RErr Overflow).
Proof.
  intros T F [h b env] d len HF HT Hl Hc fi. subst fi. cbn [w_builder] in *. destruct (room_full T F b) as [R1 R2]. rewrite <- R2, <- R1.
  simpl. unfold token. cbv zeta. destruct (len_is_empty F len) eqn:El.
  - assert (Hfi : fl_index F = IxEmpty \/ (b_cursor b + len <= ix_max F)%N).
    { unfold len_is_empty in El. destruct (fl_index F); auto; apply N.eqb_eq in El; right; lia. }
    destruct (insert_vec F HF b d (Span (b_cursor b) (b_cursor b))) as [[-> ->]|(-> & b' & -> & _)]; split; intros H; auto.
    + destruct H; discriminate.
    + destruct H; [discriminate|tauto].
  - assert (HE : fl_index F <> IxEmpty) by (unfold len_is_empty in El; destruct (fl_index F); congruence).
    rewrite C35_checked_add by auto. destruct (N.leb_spec (b_cursor b + len) (ix_max F)) as [Hle|Hgt].
    + set (b1 := set_b_tree _ (set_b_cursor _ b)). assert (Hf : is_full F b1 = is_full F b) by reflexivity.
      destruct (insert_vec F HF b1 d (Span (b_cursor b) (b_cursor b1))) as [[E ->]|(E & b' & -> & _)]; rewrite Hf in E; rewrite E; split; intros H; auto.
      * destruct H; discriminate.
      * cbn [b_tree set_b_sibling].
        destruct (push_index_cases F HF (b_tree b') (b_cursor (set_b_sibling (Some (tree_len (b_tree b1))) b')) (tree_len (b_tree b1))) as (t' & -> & _). reflexivity.
      * destruct H; [discriminate|tauto].
    + simpl. split; auto. intros [_ [H|H]]; [congruence|lia].
Qed.
Print Assumptions C12_token.

(** The limits in numbers.  An unsigned integer of [k] bits serves as a pointer to every node but the one numbered
    2^k - 1, so a tree holds that many nodes and no more; and a u32 or usize position stays below 2^k. *)
Definition width_bits (F : flavor) : N :=
  match fl_width F with
  | U8 => 8 | U16 => 16 | U32 => 32 | U64 => 64 | U128 => 128
  | Usize => if N.eqb (fl_usize_max F) usize_max_32 then 32 else 64
  end.
Theorem C12_numbers : forall T F (ops : list (op T)), vec_flavor F -> target_ok F ->
  (N.of_nat (tree_len (tree_so_far F ops)) < 2 ^ width_bits F)%N /\
  (forall d, (exists id, snd (step F (run_world F ops) (OOpen d)) = RNode id) <->
             (N.of_nat (tree_len (tree_so_far F ops)) < 2 ^ width_bits F - 1)%N) /\
  (fl_index F = IxU32 -> forall v, (v <= ix_max F <-> v < 2 ^ 32)%N) /\
  (fl_index F = IxUsize -> forall v, (v <= ix_max F <-> v < (if N.eqb (fl_usize_max F) usize_max_32 then 2 ^ 32 else 2 ^ 64))%N).
Proof.
  intros T F ops HF HT.
  assert (E : int_max F (fl_width F) = (2 ^ width_bits F - 1)%N).
  { unfold int_max, width_bits. destruct (fl_width F); try reflexivity. destruct HT as [-> | ->]; reflexivity. }
  assert (Hp : (1 <= 2 ^ width_bits F)%N) by (pose proof (N.pow_nonzero 2 (width_bits F) ltac:(lia)); lia).
  pose proof (C12_size T F ops HF) as Hs. rewrite E in Hs.
  split; [lia|]. split.
  { intros d. destruct (C12_inserting T F (run_world F ops) (OOpen d) HF I) as [H1 H2]. unfold room, tree_so_far in *. rewrite E in *.
    destruct (N.lt_ge_cases (N.of_nat (tree_len (b_tree (w_builder (run_world F ops))))) (2 ^ width_bits F - 1)) as [Hl|Hl].
    - rewrite (H1 Hl). split; eauto.
    - rewrite H2 by lia. split; [intros [id Ed]; discriminate|lia]. }
  unfold ix_max. split; intros -> v; [change (2 ^ 32)%N with 4294967296%N; lia|].
  destruct HT as [-> | ->]; cbn [N.eqb usize_max_32 usize_max_64 Pos.eqb];
    [change (2 ^ 32)%N with 4294967296%N; unfold usize_max_32|change (2 ^ 64)%N with 18446744073709551616%N; unfold usize_max_64]; lia.
Qed.
Print Assumptions C12_numbers.

(** close_at, close_at_with: when not refused for the level, succeed exactly when there is room. *)
Theorem C12_close_at : forall T F (ops : list (op T)) o k d, vec_flavor F ->
  let w := run_world F ops in
  (o = OCloseAt k d \/ exists sp, o = OCloseAtWith k d sp) ->
  snd (step F w o) <> RNoHandle -> snd (step F w o) <> RErr CloseAtError ->
  (room F (b_tree (w_builder w)) -> snd (step F w o) = RNode (tree_len (b_tree (w_builder w)))) /\
  (~ room F (b_tree (w_builder w)) -> step F w o = (w, RErr Overflow)).
Proof.
  intros T F ops o k d HF w Ho Hn Hc. pose proof (run_wok T F ops HF) as [H He]. fold w in H, He. clearbody w.
  destruct w as [h b env]. cbn [w_builder w_heap w_env] in *. destruct (room_full T F b) as [R1 R2]. rewrite <- R2, <- R1.
  assert (G : exists osp, step F (World h b env) o = match nth_error env k with
      | None => (World h b env, RNoHandle)
      | Some a => let '(h, b, r) := close_at_gen F a d osp h b in (World h b env, out_node r) end).
  { destruct Ho as [->|[sp ->]]; [exists None|exists (Some sp)]; reflexivity. }
  destruct G as [osp G]. rewrite G in *. clear G Ho. destruct (nth_error env k) as [a|] eqn:Ek; [|simpl in Hn; congruence].
  destruct (nth_in h a) as [c Ec]; [apply He; eapply nth_error_In; eauto|].
  pose proof (close_at_cases F HF h b a c d osp H Ec) as HC.
  pose proof (node_room T F (World h b env)) as NR. cbn [w_builder] in NR.
  specialize (NR (match osp with Some sp => OCloseAtWith k d sp | None => OCloseAt k d end)).
  assert (Es : step F (World h b env) (match osp with Some sp => OCloseAtWith k d sp | None => OCloseAt k d end) =
     let '(h, b, r) := close_at_gen F a d osp h b in (World h b env, out_node r)).
  { destruct osp; simpl; rewrite Ek; reflexivity. }
  rewrite Es in NR. clear Es.
  destruct HC as [(e & E & [[-> _]|(-> & Hp & Hf)])|[(b' & E & _)|(l & h' & b' & _ & _ & E & _)]]; rewrite E in *; simpl in *.
  - congruence.
  - split; auto. rewrite pointer_new_full in Hf. unfold is_full. destruct (_ <=? _)%N; discriminate.
  - split; auto. rewrite (NR _ eq_refl). discriminate.
  - split; auto. rewrite (NR _ eq_refl). discriminate.
Qed.
Print Assumptions C12_close_at.

Theorem C12_ids_representable : forall T F (ops : list (op T)) id, vec_flavor F -> target_ok F ->
  In (RNode id) (run_outs F ops) -> ptr_new F (N.of_nat id) <> None.
Proof.
  intros T F ops id HF HT. rewrite <- (rev_involutive ops). induction (rev ops) as [|o l IH]; simpl; [intros []|].
  rewrite (proj2 (run_snoc T F (rev l) o)). intros Hin. apply in_app_or in Hin. destruct Hin as [Hin|[Hin|[]]]; auto.
  apply node_room in Hin as Hr. apply room_full in Hr.
  pose proof (C10_fresh T F (rev l) o HF) as G. cbv zeta in G. rewrite Hin in G. destruct G as (-> & _).
  intros E. assert (H : exists p, ptr_new F (N.of_nat (tree_len (tree_so_far F (rev l)))) = Some p); [|destruct H; congruence].
  apply C11_new_iff; auto.
Qed.
Print Assumptions C12_ids_representable.

(** 255 nodes fit u8 pointers, the 256th does not. *)
Example C12_inhabited :
  let ops := repeat (OToken tt 1%N) 255 in
  tree_len (tree_so_far flavor_u8 ops) = 255 /\ ~ room flavor_u8 (tree_so_far flavor_u8 ops) /\
  snd (step flavor_u8 (run_world flavor_u8 ops) (OTokenEmpty tt)) = RErr Overflow.
Proof.
  cbv zeta. split; [|split]; [vm_compute; reflexivity| |vm_compute; reflexivity].
  unfold room. vm_compute. discriminate.
Qed.

(** ** C13: failed calls *)

(** A token of nonzero length, in a tree that is full.  The only refused call that changes something. *)
Definition late_refusal {T} (F : flavor) (w : world T) (o : op T) : Prop :=
  exists d len, o = OToken d len /\ len_is_empty F len = false /\ ~ room F (b_tree (w_builder w)).

(** Partial: C13 claims this without the exception. *)
Theorem C13_unchanged_partial : forall T F (ops : list (op T)) o w' e, vec_flavor F ->
  let w := run_world F ops in
  step F w o = (w', RErr e) -> ~ late_refusal F w o -> w' = w.
Proof.
  intros T F ops o w' e HF w E Hl. pose proof (run_wok T F ops HF) as [H He]. fold w in H, He. clearbody w.
  destruct w as [h b env]. cbn [w_builder w_heap w_env] in *.
  assert (HT : forall d len, (len_is_empty F len = false -> room F (b_tree b)) -> forall b' r, token F d len b = (b', r) ->
     forall e, out_node r = RErr e -> b' = b).
  { clear o E Hl. intros d len Hr b' r E e0 He0. unfold token in E. cbv zeta in E. destruct (len_is_empty F len) eqn:El.
    - destruct (insert_vec F HF b d (Span (b_cursor b) (b_cursor b))) as [[_ E1]|(_ & b1 & E1 & _)]; rewrite E1 in E; injection E as <- <-; [auto|discriminate].
    - destruct (ix_checked_add_len _ _ _) as [c|]; [|injection E as <- <-; auto].
      set (b0 := set_b_tree _ (set_b_cursor c b)) in E.
      destruct (insert_vec F HF b0 d (Span (b_cursor b) (b_cursor b0))) as [[Hf E1]|(_ & b1 & E1 & _)].
      + exfalso. apply room_full in Hf. apply Hf, Hr. auto.
      + rewrite E1 in E. cbn [b_tree set_b_sibling] in E.
        destruct (push_index_cases F HF (b_tree b1) (b_cursor (set_b_sibling (Some (tree_len (b_tree b0))) b1)) (tree_len (b_tree b0))) as (t' & Et & _).
        rewrite Et in E. injection E as _ <-. discriminate. }
  assert (HC : forall a k d osp h' b' r, nth_error env k = Some a -> close_at_gen F a d osp h b = (h', b', r) -> out_node r = RErr e -> h' = h /\ b' = b).
  { clear o E Hl. intros a k d osp h' b' r Ek E Er. destruct (nth_in h a) as [c Ec]; [apply He; eapply nth_error_In; eauto|].
    destruct (close_at_cases F HF h b a c d osp H Ec) as [(e' & E' & _)|[(b1 & E' & _)|(l & h1 & b1 & _ & _ & E' & _)]];
      rewrite E' in E; injection E as <- <- <-; try discriminate; auto. }
  destruct o; simpl in E.
  - unfold open in E. destruct (insert_vec F HF b d (span_point (b_cursor b))) as [[_ E1]|(_ & b' & E1 & _)]; rewrite E1 in E; simpl in E; congruence.
  - unfold open_with in E. destruct (insert_vec F HF b d sp) as [[_ E1]|(_ & b' & E1 & _)]; rewrite E1 in E; simpl in E; congruence.
  - pose proof (close_ok h b H) as [_ Hf]. unfold close in *. destruct (b_parent b); [|simpl in E; congruence].
    cbv zeta in *. destruct (nth_error _ n); [|destruct Hf]. destruct (l_parent l); [|discriminate].
    destruct (nth_error _ n0); [discriminate|destruct Hf].
  - destruct (token F d len b) as [b' r] eqn:Et. assert (Er : out_node r = RErr e) by congruence.
    assert (b' = b); [|congruence]. eapply HT; eauto. intros El. destruct (room_full T F b) as [R1 R2].
    destruct (is_full F b) eqn:Ef; [|apply R1; auto]. exfalso. apply Hl. exists d, len. split; auto. split; auto. apply R2. auto.
  - unfold token_empty in E. destruct (token F d len_EMPTY b) as [b' r] eqn:Et. assert (Er : out_node r = RErr e) by congruence.
    assert (b' = b); [|congruence]. eapply HT; eauto. unfold len_is_empty, len_EMPTY. destruct (fl_index F); discriminate.
  - unfold token_with in E. destruct (insert_vec F HF b d sp) as [[_ E1]|(_ & b' & E1 & _)]; rewrite E1 in E; [simpl in E; congruence|].
    cbv zeta in E. destruct (push_index_cases F HF (b_tree b') (s_start sp) (tree_len (b_tree b))) as (t' & Et & _).
    cbn [b_tree set_b_sibling] in E. rewrite Et in E. discriminate.
  - unfold checkpoint in E. destruct (pointer_new _ _); [|congruence]. destruct (b_checkpoint b); [|discriminate].
    destruct (nth_error h _); [|discriminate]. destruct (_ && _); discriminate.
  - destruct (nth_error env k) as [a|] eqn:Ek; [|discriminate]. unfold close_at in E.
    destruct (close_at_gen F a d None h b) as [[h' b'] r] eqn:Ec. destruct (HC a k d None h' b' r Ek Ec) as [-> ->]; congruence.
  - destruct (nth_error env k) as [a|] eqn:Ek; [|discriminate]. unfold close_at_with in E.
    destruct (close_at_gen F a d (Some sp) h b) as [[h' b'] r] eqn:Ec. destruct (HC a k d (Some sp) h' b' r Ek Ec) as [-> ->]; congruence.
  - discriminate.
Qed.
Print Assumptions C13_unchanged_partial.

(** The exception, exactly: nodes, links and open nodes stay, but the cursor and
    the end of the tree's span move (if the index can). *)
Theorem C13_late_refusal : forall T F (ops : list (op T)) d len, vec_flavor F ->
  let w := run_world F ops in
  let b := w_builder w in
  late_refusal F w (OToken d len) ->
  snd (step F w (OToken d len)) = RErr Overflow /\
  fst (step F w (OToken d len)) =
    match ix_checked_add_len F (b_cursor b) len with
    | None => w
    | Some c => World (w_heap w)
        (set_b_cursor c (set_b_tree (set_t_span (set_end (t_span (b_tree b)) c) (b_tree b)) b)) (w_env w)
    end.
Proof.
  intros T F ops d len HF w b (d' & len' & E & El & Hr). injection E as <- <-. subst b. clearbody w.
  destruct w as [h b env]. cbn [w_builder w_heap w_env] in *. simpl. unfold token. cbv zeta. rewrite El.
  destruct (ix_checked_add_len _ _ _) as [c|]; [|auto].
  set (b0 := set_b_tree _ (set_b_cursor c b)).
  destruct (insert_vec F HF b0 d (Span (b_cursor b) (b_cursor b0))) as [[Hf ->]|(Hf & b1 & _)]; [auto|].
  exfalso. apply Hr. apply room_full. exact Hf.
Qed.
Print Assumptions C13_late_refusal.

(** C13 as stated is false: a refused token moves the cursor. *)
Theorem C13_refuted : exists (F : flavor) (ops : list (op nat)) o w' e,
  vec_flavor F /\ target_ok F /\ step F (run_world F ops) o = (w', RErr e) /\
  cursor (w_builder w') <> cursor (w_builder (run_world F ops)) /\
  t_span (b_tree (w_builder w')) <> t_span (b_tree (w_builder (run_world F ops))).
Proof.
  exists flavor_u8, (repeat (OToken 0 1%N) 255), (OToken 0 7%N).
  eexists. exists Overflow. split; [vm_compute; auto|]. split; [right; reflexivity|].
  split; [vm_compute; reflexivity|]. split; vm_compute; discriminate.
Qed.
Print Assumptions C13_refuted.

Example C13_inhabited :
  let w := run_world flavor_default [OOpen 1; OToken 2 3%N] in
  snd (step flavor_default w (OToken 3 4294967295%N)) = RErr Overflow /\
  fst (step flavor_default w (OToken 3 4294967295%N)) = w.
Proof. vm_compute. auto. Qed.

(** ** C35: values stay in range through any history *)
Definition links_wf {T} (F : flavor) (ns : list (links T)) : Prop := Forall (fun l => span_wf F (l_span l)) ns.
Definition builder_wf {T} (F : flavor) (b : builder T) : Prop :=
  links_wf F (t_nodes (b_tree b)) /\ span_wf F (t_span (b_tree b)) /\ (b_cursor b <= ix_max F)%N.

Section Range.
Context {T : Type}.
Variable F : flavor.
Implicit Types (ns : list (links T)) (b : builder T).

Lemma wf_upd ns i f : links_wf F ns -> (forall l, span_wf F (l_span l) -> span_wf F (l_span (f l))) -> links_wf F (upd ns i f).
Proof.
  intros H Hf. revert i. induction H as [|l ns Hl H IH]; intros [|i]; simpl; constructor; auto. apply IH.
Qed.
Lemma wf_push s ns ns' l : storage_push s ns l = Some ns' -> links_wf F ns -> span_wf F (l_span l) -> links_wf F ns'.
Proof.
  unfold storage_push. intros E H Hl. assert (links_wf F (ns ++ [l])) by (apply Forall_app; split; auto; constructor; auto).
  destruct s as [| |c]; [..|destruct (Nat.ltb _ _); [|discriminate]]; injection E as <-; auto.
Qed.
Lemma wf_nth ns i l : links_wf F ns -> nth_error ns i = Some l -> span_wf F (l_span l).
Proof. intros H E. eapply Forall_forall in H; [|eapply nth_error_In; eauto]. auto. Qed.
Lemma wf_join (a b : span) : span_wf F a -> span_wf F b -> span_wf F (span_join a b).
Proof. unfold span_wf, span_join. simpl. intros [] []. split; lia. Qed.
Lemma wf_end a e : span_wf F a -> (e <= ix_max F)%N -> span_wf F (set_end a e).
Proof. unfold span_wf. simpl. tauto. Qed.
Lemma add_range c len v : ix_checked_add_len F c len = Some v -> (v <= ix_max F)%N.
Proof.
  unfold ix_checked_add_len, ix_max. destruct (fl_index F).
  - destruct (_ <=? _)%N; [|discriminate]. destruct (N.leb_spec (c + len) 4294967295); [|discriminate]. intros E; injection E as <-; auto.
  - destruct (N.leb_spec (c + len) (fl_usize_max F)); [|discriminate]. intros E; injection E as <-; auto.
  - intros E; injection E as <-. lia.
Qed.

Lemma wf_restructure p : forall fuel x ns, links_wf F ns -> links_wf F (fst (restructure fuel p x ns)) /\
  forall y e, snd (restructure fuel p x ns) = Ok (y, e) -> (e <= ix_max F)%N.
Proof.
  induction fuel as [|fuel IH]; intros x ns H; simpl; [split; auto; discriminate|].
  destruct (nth_error ns x) as [l|] eqn:E; simpl; [|split; auto; discriminate].
  assert (H' : links_wf F (upd ns x (set_l_parent (Some p)))) by (apply wf_upd; auto).
  destruct (l_next l); [apply IH; auto|]. simpl. split; auto. intros y e Q. injection Q as _ <-. apply (wf_nth _ _ _ H E).
Qed.

Lemma wf_insert b d sp : builder_wf F b -> span_wf F sp -> builder_wf F (fst (insert F d sp b)).
Proof.
  intros (H1 & H2 & H3) Hs. unfold insert. rewrite pointer_new_full. destruct (_ <=? _)%N; [split; auto|]. cbv zeta.
  unfold tree_push. cbn [b_tree set_b_sibling b_parent].
  destruct (storage_push _ _ _) as [ns|] eqn:Ep; [|split; auto]. apply wf_push in Ep; auto.
  cbn [option_map fst]. unfold builder_wf. cbn [b_tree set_b_tree b_cursor set_b_sibling].
  assert (Hu : forall i, links_wf F (upd ns i (fun l =>
            let l := match l_first l with
                     | None => set_l_first (Some (tree_len (b_tree b))) l
                     | Some _ => l
                     end in
            let l := set_l_last (Some (tree_len (b_tree b))) l in
            set_l_span (set_end (l_span l) (s_end sp)) l))).
  { intros i. apply wf_upd; auto. intros l Hl. cbn. apply wf_end; [destruct (l_first l); auto|apply Hs]. }
  split; [|split; auto].
  - destruct (b_parent b), (b_sibling b); cbn [t_nodes tree_upd set_t_nodes set_t_last t_first];
      try (apply wf_upd; [apply Hu|auto]; fail); try apply Hu; try (destruct (t_first (b_tree b)); simpl; auto; fail).
    apply wf_upd; [|auto]. destruct (t_first (b_tree b)); simpl; auto.
  - destruct (b_parent b), (b_sibling b); simpl; auto; destruct (t_first (b_tree b)); auto.
Qed.

Lemma wf_push_index ix i (t t' : tree T) : tree_push_index F ix i t = Some t' -> t_nodes t' = t_nodes t /\ t_span t' = t_span t.
Proof. unfold tree_push_index. destruct (storage_push _ _ _); simpl; [|discriminate]. intros E; injection E as <-. auto. Qed.

Lemma wf_token b d len : builder_wf F b -> builder_wf F (fst (token F d len b)).
Proof.
  intros H. unfold token. cbv zeta.
  assert (G : forall b0, builder_wf F b0 -> builder_wf F (fst (match insert F d (Span (b_cursor b) (b_cursor b0)) b0 with
    | (b, Ok id) =>
      let b := set_b_sibling (Some id) b in
      if len_is_empty F len then (b, Ok id)
      else
        match tree_push_index F (b_cursor b) id (b_tree b) with
        | None => (b, Err FlavorError)
        | Some t => (set_b_tree t b, Ok id)
        end
    | r => r
    end))).
  { intros b0 H0. pose proof (wf_insert b0 d (Span (b_cursor b) (b_cursor b0)) H0) as G.
    destruct (insert F d _ b0) as [b1 [id|e|]]; simpl in G; [|apply G; split; [apply H|apply H0]..].
    specialize (G ltac:(split; [apply H|apply H0])). cbv zeta. destruct (len_is_empty F len); [exact G|].
    destruct (tree_push_index _ _ _ _) as [t|] eqn:Et; [|exact G]. apply wf_push_index in Et. simpl in Et. destruct Et as [E1 E2].
    destruct G as (A & B & C). simpl. unfold builder_wf. simpl. rewrite E1, E2. auto. }
  destruct (len_is_empty F len); [apply G; auto|].
  destruct (ix_checked_add_len F (b_cursor b) len) as [c|] eqn:Ec; [|exact H]. apply G.
  apply add_range in Ec. destruct H as (A & B & C). split; [|split]; simpl; auto. apply wf_end; auto.
Qed.

Lemma wf_close_at a d osp h b : builder_wf F b -> (forall sp, osp = Some sp -> span_wf F sp) ->
  builder_wf F (snd (fst (close_at_gen F a d osp h b))).
Proof.
  intros H Ho. unfold close_at_gen. destruct (nth_error h a) as [c|]; [|exact H]. destruct (negb _); [exact H|].
  rewrite pointer_new_full. destruct (_ <=? _)%N; [exact H|].
  destruct (nth_error (t_nodes (b_tree b)) (c_node c)) as [l|] eqn:El.
  - cbv zeta. set (n := tree_len (b_tree b)). destruct H as (A & B & C).
    pose proof (wf_nth _ _ _ A El) as Hl.
    set (t0 := tree_upd (c_node c) _ (b_tree b)).
    assert (A0 : links_wf F (t_nodes t0)) by (unfold t0; simpl; apply wf_upd; auto).
    destruct (match l_next l with Some _ => _ | None => _ end) as [m r] eqn:Em.
    assert (Hm : links_wf F m /\ forall y e, r = Ok (y, e) -> (e <= ix_max F)%N).
    { destruct (l_next l).
      - pose proof (wf_restructure n (S (tree_len t0)) n0 (t_nodes t0) A0) as G. rewrite Em in G. exact G.
      - injection Em as <- <-. split; auto. intros y e E. injection E as _ <-. apply Hl. }
    destruct Hm as [Am He].
    destruct r as [[last e]|e|]; [|split; [|split]; auto..].
    specialize (He _ _ eq_refl).
    set (t1 := match l_parent l with Some _ => _ | None => _ end).
    assert (A1 : links_wf F (t_nodes t1) /\ t_span t1 = t_span (b_tree b)).
    { unfold t1. destruct (l_parent l); [split; [|reflexivity]|split; [exact Am|reflexivity]]. simpl. apply wf_upd; auto.
      intros l0 Hl0. destruct (opt_nat_eqb (l_first l0) _), (opt_nat_eqb _ _); auto. }
    set (t2 := match l_prev l with Some _ => _ | None => _ end).
    assert (A2 : links_wf F (t_nodes t2) /\ t_span t2 = t_span (b_tree b)).
    { unfold t2. destruct (l_prev l); [split; [|apply A1]|exact A1]. simpl. apply wf_upd; auto. apply A1. }
    set (t3 := if opt_nat_eqb (t_first t2) _ then _ else _).
    assert (A3 : links_wf F (t_nodes t3) /\ t_span t3 = t_span (b_tree b)).
    { unfold t3. destruct (opt_nat_eqb (t_first t2) _); exact A2. }
    destruct A3 as [A3 B3]. unfold tree_push. destruct (storage_push _ _ _) as [ns|] eqn:Ep; simpl; unfold builder_wf; simpl.
    + rewrite B3. split; auto. eapply wf_push; eauto. simpl. destruct osp; [auto|]. split; simpl; [apply Hl|auto].
    + rewrite B3. auto.
  - assert (Hs : span_wf F (match osp with Some sp => sp | None => span_point (b_cursor b) end)).
    { destruct osp; [auto|]. split; apply H. }
    pose proof (wf_insert b d _ H Hs) as G. destruct (insert F d _ b) as [b1 [id|e|]]; simpl in G; [|exact G..].
    destruct (Nat.eqb _ _); exact G.
Qed.

Lemma wf_step (w : world T) o : builder_wf F (w_builder w) -> op_wf F o -> builder_wf F (w_builder (fst (step F w o))).
Proof.
  destruct w as [h b env]. cbn [w_builder]. intros H Ho. destruct o; simpl.
  - unfold open. pose proof (wf_insert b d (span_point (b_cursor b)) H) as G.
    destruct (insert F d _ b) as [b1 [id|e|]]; apply G; split; apply H.
  - unfold open_with. pose proof (wf_insert b d sp H Ho) as G. destruct (insert F d _ b) as [b1 [id|e|]]; exact G.
  - unfold close. destruct (b_parent b); [|exact H]. cbv zeta. cbn [b_tree set_b_parent set_b_sibling].
    destruct (nth_error _ n) as [l|] eqn:El; [|exact H]. destruct H as (A & B & C). pose proof (wf_nth _ _ _ A El) as Hl.
    destruct (l_parent l); [|split; [|split]; simpl; auto; apply Hl].
    destruct (nth_error _ n0); [|split; [|split]; simpl; auto]. simpl. split; [|split]; simpl; auto; [|apply Hl].
    apply wf_upd; auto. intros l1 H1. simpl. apply wf_join; auto.
  - pose proof (wf_token b d len H) as G. destruct (token F d len b). exact G.
  - pose proof (wf_token b d len_EMPTY H) as G. unfold token_empty. destruct (token F d len_EMPTY b). exact G.
  - unfold token_with. pose proof (wf_insert b d sp H Ho) as G. destruct (insert F d _ b) as [b1 [id|e|]]; try exact G.
    cbv zeta. destruct (tree_push_index _ _ _ _) as [t|] eqn:Et; [|exact G]. apply wf_push_index in Et. simpl in Et.
    destruct Et as [E1 E2]. destruct G as (A & B & C). simpl. split; [|split]; simpl; [| |apply Ho].
    + cbn [b_parent]. destruct (b_parent b1); simpl; rewrite E1; auto. apply wf_upd; auto. intros l1 H1. simpl. apply wf_join; auto.
    + destruct (b_parent b1); simpl; rewrite E2; auto.
  - unfold checkpoint. destruct (pointer_new _ _); [|exact H]. destruct (b_checkpoint b); [|exact H].
    destruct (nth_error h _); [|exact H]. destruct (_ && _); exact H.
  - destruct (nth_error env k) as [a|]; [|exact H]. unfold close_at. pose proof (wf_close_at a d None h b H ltac:(discriminate)) as G.
    destruct (close_at_gen F a d None h b) as [[h' b'] r]. exact G.
  - destruct (nth_error env k) as [a|]; [|exact H]. unfold close_at_with.
    assert (G : builder_wf F (snd (fst (close_at_gen F a d (Some sp) h b)))).
    { apply wf_close_at; auto. intros s E. injection E as <-. exact Ho. }
    destruct (close_at_gen F a d (Some sp) h b) as [[h' b'] r]. exact G.
  - split; [|split]; simpl; try apply H. exact Ho.
Qed.
End Range.

(** In every history whose arguments are values of their Rust types, for
    every storage: the cursor, the span of every node and the span of the tree are values of the
    index type. *)
Theorem C35_in_range : forall T F (ops : list (op T)), Forall (op_wf F) ops ->
  let b := w_builder (run_world F ops) in
  (b_cursor b <= ix_max F)%N /\ span_wf F (t_span (b_tree b)) /\
  forall id n, tree_get (b_tree b) id = Some n -> span_wf F (node_span n).
Proof.
  intros T F ops Hops b.
  assert (G : builder_wf F b).
  { subst b. unfold run_world. assert (H0 : builder_wf F (w_builder (@world_new T))).
    { split; [|split]; simpl; [constructor|split; apply N.le_0_l|apply N.le_0_l]. }
    revert H0. generalize (@world_new T). induction Hops as [|o ops Ho Hops IH]; intros w H; simpl; auto.
    apply (wf_step F w o) in H; auto. destruct (step F w o) as [w1 r1]. simpl in H. specialize (IH w1 H).
    destruct (run F w1 ops). exact IH. }
  destruct G as (A & B & C). split; [auto|]. split; [auto|]. intros id n E. unfold tree_get, node_at in E.
  destruct (nth_error (t_nodes (b_tree b)) id) as [l|] eqn:El; [|discriminate]. injection E as <-.
  apply (wf_nth F _ _ _ A El).
Qed.
Print Assumptions C35_in_range.

Example C35_in_range_inhabited : Forall (op_wf flavor_default)
  [OOpenWith 1 (Span 3 9); OToken 2 4294967295%N; OTokenWith 3 (Span 5 4294967295); OSetCursor 7%N].
Proof. repeat constructor; discriminate. Qed.
