(** The open nodes of a builder, in all histories (also those that misuse checkpoints). *)
From Coq Require Import Lia.
From Verif Require Import Base Pointer Index Tree Builder Hist Node Iter Spec SpecMarks Rep Refine AllHist StepFacts Spanless.

Section Stack.
Context {T : Type}.
Variable F : flavor.
Hypothesis HF : vec_flavor F.
Implicit Types (b : builder T) (w : world T) (ns : list (links T)).

(** [stk] is the stack of open nodes of [b], innermost first. *)
Definition stack_of b (stk : list nat) : Prop := stack_inv (t_nodes (b_tree b)) stk /\ b_parent b = hd_error stk.

Lemma stack_unique ns : forall s1 s2, stack_inv ns s1 -> stack_inv ns s2 -> hd_error s1 = hd_error s2 -> s1 = s2.
Proof.
  induction s1 as [|x s1 IH]; intros [|y s2] H1 H2 E; try discriminate; auto. simpl in E. injection E as <-.
  destruct H1 as [(l & E1 & P1 & _) [_ H1]], H2 as [(m & E2 & P2 & _) [_ H2]]. f_equal. apply IH; auto. congruence.
Qed.

Lemma stack_full h b stk : ok h b -> stack_of b stk -> exists lo hi cap,
  builder_inv b lo hi cap stk /\ cells_inv h (tree_len (b_tree b)) lo hi cap stk.
Proof.
  intros (lo & hi & cap & s & HB & HC) [H1 H2]. assert (s = stk) as <-; [|eauto].
  eapply stack_unique; [apply (bi_stack _ _ _ _ _ HB)|exact H1|]. rewrite <- H2. symmetry. apply (bi_parent _ _ _ _ _ HB).
Qed.

Lemma stack_ext b c stk : stack_of b stk -> same_ptrs (t_nodes (b_tree b)) (t_nodes (b_tree c)) -> b_parent c = b_parent b -> stack_of c stk.
Proof. intros [H1 H2] HS E. split; [eapply same_ptrs_stack; eauto|congruence]. Qed.

Lemma stack_insert h b b' stk : ok h b -> stack_of b stk -> insert_ok b b' -> stack_of b' stk /\
  stack_of (set_b_parent (Some (tree_len (b_tree b))) b') (tree_len (b_tree b) :: stk).
Proof.
  intros H HS HI. destruct (stack_full h b stk H HS) as (lo & hi & cap & HB & HC).
  destruct (insert_inv b b' lo hi cap stk h HB HI HC) as (lo' & hi' & cap' & HB' & HL & (l & El & Epar & Enx) & _).
  assert (S' : stack_of b' stk) by (split; [apply (bi_stack _ _ _ _ _ HB')|apply (bi_parent _ _ _ _ _ HB')]).
  split; auto. split; auto. simpl. split; [|split; [|apply S']].
  - exists l. split; auto. split; auto. rewrite Epar. apply HS.
  - intros y Hy. eapply stack_lt; [apply HS|exact Hy].
Qed.

Lemma stack_open h b d sp stk : ok h b -> stack_of b stk ->
  stack_of (fst (open_with F d sp b)) (match snd (open_with F d sp b) with Ok id => id :: stk | _ => stk end).
Proof.
  intros H HS. unfold open_with. destruct (ok_bounds _ _ H) as [Hp Hs].
  destruct (insert_cases F HF b d sp Hp Hs) as [->|(b' & -> & HI)]; simpl; auto. eapply stack_insert; eauto.
Qed.

Lemma stack_rest h b d sp len stk : ok h b -> stack_of b stk -> stack_of (fst (token_rest F d sp len b)) stk.
Proof.
  intros H HS. unfold token_rest. destruct (ok_bounds _ _ H) as [Hp Hs].
  destruct (insert_cases F HF b d sp Hp Hs) as [->|(b' & -> & HI)]; [simpl; auto|].
  destruct (stack_insert h b b' stk H HS HI) as [S' _]. cbv zeta.
  destruct (len_is_empty F len); [exact S'|].
  destruct (push_index_cases F HF (b_tree (set_b_sibling (Some (tree_len (b_tree b))) b'))
       (b_cursor (set_b_sibling (Some (tree_len (b_tree b))) b')) (tree_len (b_tree b))) as (t' & E & E1 & _).
  rewrite E. eapply stack_ext; [exact S'|..]; simpl; auto. apply same_ptrs_eq. exact E1.
Qed.

Lemma stack_token h b d len stk : ok h b -> stack_of b stk -> stack_of (fst (token F d len b)) stk.
Proof.
  intros H HS. rewrite token_cases. destruct (len_is_empty F len); [eapply stack_rest; eauto|].
  destruct (ix_checked_add_len F (b_cursor b) len) as [c|]; [|exact HS].
  apply (stack_rest h).
  - eapply ok_ext; [exact H|..]; simpl; auto. apply same_ptrs_refl.
  - eapply stack_ext; [exact HS|..]; simpl; auto. apply same_ptrs_refl.
Qed.

Lemma stack_token_with h b d sp stk : ok h b -> stack_of b stk -> stack_of (fst (token_with F d sp b)) stk.
Proof.
  intros H HS. unfold token_with. destruct (ok_bounds _ _ H) as [Hp Hs].
  destruct (insert_cases F HF b d sp Hp Hs) as [->|(b' & -> & HI)]; [simpl; auto|].
  destruct (stack_insert h b b' stk H HS HI) as [S' _]. cbv zeta.
  set (b1 := set_b_sibling (Some (tree_len (b_tree b))) b').
  destruct (push_index_cases F HF (b_tree b1) (s_start sp) (tree_len (b_tree b))) as (t' & E & E1 & _).
  rewrite E. simpl. eapply stack_ext; [exact S'|..]; [|simpl; auto]. simpl.
  destruct (b_parent b'); simpl; rewrite E1; [apply same_ptrs_upd|apply same_ptrs_refl].
  intros l. apply (ptrs_span (fun l => span_join (l_span l) sp)).
Qed.

Lemma stack_close h b stk : ok h b -> stack_of b stk ->
  stack_of (fst (close b)) (match snd (close b) with Ok _ => tl stk | _ => stk end) /\
  (snd (close b) = Ok tt <-> stk <> []) /\ (stk = [] -> close b = (b, Err CloseError)).
Proof.
  intros H HS. destruct (stack_full h b stk H HS) as (lo & hi & cap & HB & HC). destruct HS as [H4 H5].
  unfold close. rewrite H5. destruct stk as [|head stk]; [simpl; split; [split; auto|split; [split; [discriminate|tauto]|auto]]|].
  simpl in H5. simpl hd_error. cbv iota zeta. destruct H4 as [[l [E [El En]]] [Hd Hs]]. cbn [b_tree set_b_parent set_b_sibling]. rewrite E.
  destruct (l_parent l) as [id|] eqn:Eid.
  - destruct (li_parent _ _ _ _ _ _ ((bi_table _ _ _ _ _ HB) _ _ E) id Eid) as (Hlt & _). destruct (nth_in _ _ Hlt) as [lp Elp].
    rewrite Elp. cbn [fst snd tl]. split; [|split; [split; auto; discriminate|discriminate]]. split; [|simpl; auto].
    eapply same_ptrs_stack; [|exact Hs]. simpl. apply same_ptrs_upd. intros l1. apply (ptrs_span (fun q : links T => span_join (l_span q) (l_span l))).
  - cbn [fst snd tl]. split; [|split; [split; auto; discriminate|discriminate]]. split; simpl; auto.
Qed.

Lemma stack_wrapped h b a c lid h' b' stk : ok h b -> stack_of b stk -> nth_error h a = Some c -> c_parent c = b_parent b ->
  nth_error (t_nodes (b_tree b)) (c_node c) = Some lid ->
  wrapped h a b (c_node c) lid h' b' -> stack_of b' stk.
Proof.
  intros H HSt Ea Hpar Eid (C & z & Hch & HCT & -> & Ep & Es & Ef & El).
  destruct (stack_full h b stk H HSt) as (lo & hi & cap & HB & HC).
  set (id := c_node c) in *. set (n := tree_len (b_tree b)) in *.
  pose proof (bi_table _ _ _ _ _ HB) as HT. pose proof (HT _ _ Eid) as HI.
  pose proof (bi_stack _ _ _ _ _ HB) as HS. pose proof (bi_parent _ _ _ _ _ HB) as HP.
  pose proof (chain_facts _ _ _ _ _ _ _ HT Hch) as HF0.
  assert (Hid : id < n) by (eapply nth_lt; eauto).
  destruct (HC a c Ea) as [_ Hcell]. fold id in Hcell. fold n in Hcell.
  destruct HCT as (HL & H1 & H2).
  split; [|congruence].
  assert (HnC : forall x, In x stk -> ~ In x C).
  { intros x Hx Hc. apply HF0 in Hc. destruct stk as [|q stk]; [destruct Hx|].
    assert (x <= q) by (eapply stack_head; eauto). simpl in HP. destruct (Hcell q) as [A _]; [congruence|]. lia. }
  clear - HS H1 HnC HL Eid HI Hid. subst n. revert HS HnC. generalize dependent stk.
  induction stk as [|x s IH]; [simpl; auto|]. intros [[l [E [El' En]]] [Hd Hs]] HnC.
  simpl. split; [|split; auto].
  2:{ apply IH; auto. intros y Hy. apply HnC. simpl; auto. }
  assert (Hx : x < tree_len (b_tree b)) by (eapply nth_lt; eauto).
  destruct (nth_in (t_nodes (b_tree b')) x) as [l' E']; [unfold tree_len in *; lia|].
  destruct (H1 _ _ E' Hx) as (l0 & E0 & Gp & _ & Gn & _). exists l'. split; auto.
  assert (l0 = l) by congruence. subst l0. split.
  + rewrite Gp. destruct (in_dec Nat.eq_dec x C) as [Hc|Hc]; auto. exfalso. eapply HnC; eauto. simpl; auto.
  + destruct Gn as [[-> _]|[Gn _]]; auto. exfalso.
    destruct (li_prev _ _ _ _ _ _ HI x Gn) as (_ & _ & _ & l1 & El1 & Hn1). congruence.
Qed.

Lemma stack_close_at h b a c d osp stk : ok h b -> stack_of b stk -> nth_error h a = Some c ->
  stack_of (snd (fst (close_at_gen F a d osp h b))) stk.
Proof.
  intros H HS Ea. destruct (close_at_cases F HF h b a c d osp H Ea) as [(e & -> & He)|[(b' & -> & HI)|(lid & h' & b' & Hp & Eid & -> & HW)]].
  - exact HS.
  - exact (proj1 (stack_insert h b b' stk H HS HI)).
  - cbn [fst snd]. eapply stack_wrapped; eauto.
Qed.

Lemma stack_step w o stk : wok w -> stack_of (w_builder w) stk ->
  stack_of (w_builder (fst (step F w o))) (open_nodes stk [o] [snd (step F w o)]).
Proof.
  intros [H He] HS. destruct w as [h b env]. cbn [w_builder w_heap w_env] in *.
  destruct o; cbn [step w_heap w_builder w_env].
  - change (open F d b) with (open_with F d (span_point (b_cursor b)) b).
    pose proof (stack_open h b d (span_point (b_cursor b)) stk H HS) as G.
    destruct (open_with F d _ b) as [b' [r|e|]]; exact G.
  - pose proof (stack_open h b d sp stk H HS) as G. destruct (open_with F d _ b) as [b' [r|e|]]; exact G.
  - destruct (stack_close h b stk H HS) as (G & _). destruct (close b) as [b' [r|e|]]; exact G.
  - pose proof (stack_token h b d len stk H HS) as G. destruct (token F d len b) as [b' [r|e|]]; exact G.
  - pose proof (stack_token h b d len_EMPTY stk H HS) as G. unfold token_empty. destruct (token F d len_EMPTY b) as [b' [r|e|]]; exact G.
  - pose proof (stack_token_with h b d sp stk H HS) as G. destruct (token_with F d sp b) as [b' [r|e|]]; exact G.
  - unfold checkpoint. destruct (pointer_new F _); [|exact HS]. destruct (b_checkpoint b); [|exact HS].
    destruct (nth_error h _); [|exact HS]. destruct (_ && _); exact HS.
  - destruct (nth_error env k) as [a|] eqn:Ek; [|exact HS].
    destruct (nth_in h a) as [c Ec]; [apply He; eapply nth_error_In; eauto|].
    pose proof (stack_close_at h b a c d None stk H HS Ec) as G. unfold close_at.
    destruct (close_at_gen F a d None h b) as [[h' b'] [r|e|]]; exact G.
  - destruct (nth_error env k) as [a|] eqn:Ek; [|exact HS].
    destruct (nth_in h a) as [c Ec]; [apply He; eapply nth_error_In; eauto|].
    pose proof (stack_close_at h b a c d (Some sp) stk H HS Ec) as G. unfold close_at_with.
    destruct (close_at_gen F a d (Some sp) h b) as [[h' b'] [r|e|]]; exact G.
  - exact HS.
Qed.

Lemma open_nodes_cons (o : op T) ops r rs stk : open_nodes stk (o :: ops) (r :: rs) = open_nodes (open_nodes stk [o] [r]) ops rs.
Proof. destruct o, r; reflexivity. Qed.

Lemma stack_run ops : forall w stk, wok w -> stack_of (w_builder w) stk ->
  stack_of (w_builder (fst (run F w ops))) (open_nodes stk ops (snd (run F w ops))).
Proof.
  induction ops as [|o ops IH]; intros w stk H HS; [exact HS|].
  pose proof (stack_step w o stk H HS) as S1. pose proof (proj1 (step_ok F HF w o H)) as H1. cbn [run].
  destruct (step F w o) as [w1 r]. cbn [fst snd] in *. specialize (IH w1 _ H1 S1).
  destruct (run F w1 ops) as [w2 rs]. cbn [fst snd] in *. rewrite open_nodes_cons. exact IH.
Qed.

Lemma stack_history ops : stack_of (w_builder (run_world F ops)) (open_nodes [] ops (run_outs F ops)).
Proof. apply stack_run; [apply wok_new|]. split; simpl; auto. Qed.

Lemma nesting_open_nodes (ops : list (op T)) : forall rs stk, length (open_nodes stk ops rs) = nesting (length stk) ops rs.
Proof.
  induction ops as [|o ops IH]; intros rs stk; [reflexivity|]. destruct rs as [|r rs]; [destruct o; reflexivity|].
  destruct o, r; simpl; rewrite IH; auto. destruct stk; auto.
Qed.
End Stack.
