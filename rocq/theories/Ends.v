(** Last children and the index of positions, after any sequence of builder calls. *)
From Coq Require Import Lia QArith Lqa Permutation.
From Verif Require Import Base Pointer Index Tree Builder Hist Node Iter Edit Spec SpecReads SpecShape SpecEnds Rep Refine TreeRep Enum Walk AllHist StepFacts AllPlaced Modify PropsSafe
  AllReads Settle Shape.
Open Scope nat_scope.

Section Ends.
Context {T : Type}.
Variable F : flavor.
Hypothesis HF : vec_flavor F.
Implicit Types (b : builder T) (s : shape T) (w : world T).

Definition lasts (ns : list (links T)) : list (option nat) := map l_last ns.
Definition ends_of (t : tree T) : end_state := Ends (lasts (t_nodes t)) (t_last t) (t_indexes t).

Lemma lasts_upd ns i f g : (forall l, l_last (f l) = g (l_last l)) -> lasts (upd ns i f) = upd (lasts ns) i g.
Proof.
  intros H. unfold lasts. revert i; induction ns as [|x ns IH]; intros [|i]; simpl; auto.
  - rewrite H. auto.
  - rewrite IH. auto.
Qed.
Lemma lasts_keep ns i f : (forall l, l_last (f l) = l_last l) -> lasts (upd ns i f) = lasts ns.
Proof. intros H. rewrite (lasts_upd ns i f (fun x => x)); auto. apply upd_id. Qed.
Lemma restructure_lasts fuel p x : forall ns, lasts (fst (restructure fuel p x ns)) = lasts ns.
Proof.
  revert x. induction fuel as [|fuel IH]; intros x ns; simpl; auto.
  destruct (nth_error ns x) as [l|]; simpl; auto. destruct (l_next l); simpl.
  - rewrite IH. apply lasts_keep. auto.
  - apply lasts_keep. auto.
Qed.

Lemma insert_ends b s d sp b' id : csim b s -> insert F d sp b = (b', Ok id) -> ends_of (b_tree b') = e_add s (tree_len (b_tree b)) (ends_of (b_tree b)).
Proof.
  intros HS. unfold insert. rewrite pointer_new_full. destruct (_ <=? _)%N; [discriminate|]. unfold tree_push. rewrite (proj1 HF).
  cbn [storage_push option_map b_tree set_b_sibling b_parent b_sibling]. intros E. injection E as <- _.
  set (n := tree_len (b_tree b)). cbn [b_tree set_b_tree]. unfold e_add. rewrite <- (cs_parent _ _ HS). cbv zeta.
  assert (E : lasts (t_nodes (b_tree b)) ++ [None] = lasts (t_nodes (b_tree b) ++ [Links d sp (b_parent b) (b_sibling b) None None None])).
  { unfold lasts. rewrite map_app. reflexivity. }
  assert (G : forall (t0 : tree T), ends_of (match b_sibling b with Some i => tree_upd i (set_l_next (Some n)) t0 | None => t0 end) = ends_of t0).
  { intros t0. unfold ends_of. destruct (b_sibling b); simpl; auto. rewrite lasts_keep; auto. }
  rewrite G. unfold ends_of. simpl e_lasts. rewrite E. destruct (b_parent b) as [p|]; simpl.
  - f_equal. apply (lasts_upd _ p _ (fun _ => Some n)). intros l. destruct (l_first l); auto.
  - destruct (t_first (b_tree b)) eqn:Ef; simpl; auto.
Qed.

Lemma push_ends t ix i t' : tree_push_index F ix i t = Some t' ->
  ends_of t' = match fl_indexes F with SVec => Ends (e_lasts (ends_of t)) (e_tail (ends_of t)) (e_index (ends_of t) ++ [(ix, i)]) | _ => ends_of t end.
Proof. unfold tree_push_index. destruct (proj2 HF) as [-> | ->]; simpl; intros E; injection E as <-; auto. Qed.

Lemma last_shift {A} (r : list A) : forall x y, last (x :: r) y = last r x.
Proof. induction r as [|z r IH]; intros x y; auto. change (last (x :: z :: r) y) with (last (z :: r) y). rewrite !IH. auto. Qed.
Lemma restructure_last fuel p : forall (ns : list (links T)) x r m z e, sees (look ns) (Some (r_id x)) (x :: r) ->
  restructure fuel p (r_id x) ns = (m, Ok (z, e)) -> z = r_id (last r x).
Proof.
  induction fuel as [|fuel IH]; intros ns x r m z e H E; simpl in E; [discriminate|].
  destruct x as [i k d sp kids]. simpl in H, E. inversion H as [|i1 d1 sp1 f nx k1 kids1 rest Ei H1 H2]; subst. unfold look in Ei.
  destruct (nth_error ns i) as [l|] eqn:El; [|discriminate]. simpl in Ei. injection Ei as <- <- <- <-.
  destruct (l_next l) as [y|] eqn:En.
  - assert (exists x' r', r = x' :: r' /\ r_id x' = y) as (x' & r' & -> & <-) by (inversion H2; subst; eauto).
    assert (G : z = r_id (last r' x')). { eapply IH; [|exact E]. eapply sees_ext; [exact H2|]. intros i0 _. apply look_upd. auto. }
    rewrite G. rewrite last_shift. auto.
  - inversion H2; subst. simpl. congruence.
Qed.

Lemma close_ends b s h a c d osp h' b' lid id X later : csim b s -> nth_error h a = Some c -> nth_error (t_nodes (b_tree b)) (c_node c) = Some lid ->
  close_at_gen F a d osp h b = (h', b', Ok id) ->
  sees (look (t_nodes (b_tree b))) (Some (c_node c)) (X :: later) -> r_id X = c_node c ->
  ends_of (b_tree b') = e_wrap s X later (tree_len (b_tree b)) (ends_of (b_tree b)).
Proof.
  intros HS Ec El E HX HXi. unfold e_wrap. rewrite HXi. rewrite <- (cs_parents _ _ HS), nth_error_map, El. simpl option_map. cbv iota.
  revert E. unfold close_at_gen. rewrite Ec. destruct (negb _); [discriminate|]. rewrite pointer_new_full.
  destruct (_ <=? _)%N; [discriminate|]. rewrite El. set (n := tree_len (b_tree b)). set (x := c_node c) in *. cbv zeta.
  set (t0 := tree_upd x (fun l => set_l_prev None (set_l_parent (Some n) l)) (b_tree b)).
  assert (D0 : lasts (t_nodes t0) = lasts (t_nodes (b_tree b))) by (unfold t0; simpl; apply lasts_keep; auto).
  destruct (match l_next lid with
        | Some next => restructure (S (tree_len t0)) n next (t_nodes t0)
        | None => (t_nodes t0, Ok (x, s_end (l_span lid))) end) as [m r] eqn:ER.
  assert (DR : lasts m = lasts (t_nodes (b_tree b))).
  { rewrite <- D0. destruct (l_next lid) as [y|]; [|congruence]. pose proof (restructure_lasts (S (tree_len t0)) n y (t_nodes t0)) as G. rewrite ER in G. exact G. }
  destruct r as [[z e]|e|]; [|discriminate..].
  assert (DE : z = r_id (last later X)).
  { assert (D1 : forall i, look (t_nodes t0) i = look (t_nodes (b_tree b)) i) by (intros i; unfold t0; simpl; apply look_upd; auto).
    destruct X as [i k d0 sp0 kids]. simpl in HXi. subst i.
    inversion HX as [|i1 d1 sp1 f1 nx1 k1 kids1 rest Ei H1 H2]; subst. unfold look in Ei. rewrite El in Ei. simpl in Ei. injection Ei as <- <- <- Enx.
    destruct (l_next lid) as [y|] eqn:En; subst nx1.
    - assert (exists x' r', later = x' :: r' /\ r_id x' = y) as (x' & r' & -> & <-) by (inversion H2; subst; eauto).
      assert (G : z = r_id (last r' x')). { eapply restructure_last; [|exact ER]. eapply sees_ext; [exact H2|]. auto. }
      rewrite G, last_shift. auto.
    - inversion H2; subst. simpl. congruence. }
  unfold tree_push. rewrite (proj1 HF). cbn [storage_push option_map]. intros E. injection E as <- <- <-.
  cbn [b_tree set_b_tree set_b_sibling]. unfold ends_of at 1. cbn [t_nodes set_t_nodes t_last t_indexes]. unfold lasts at 1. rewrite map_app. simpl map at 2. rewrite <- DE. f_equal.
  - f_equal. change (map l_last) with lasts. simpl e_lasts. rewrite <- DR.
    assert (G : forall v i, lasts (upd v i (set_l_next (Some n))) = lasts v) by (intros; apply lasts_keep; auto).
    destruct (l_parent lid) as [p|], (l_prev lid) as [q|]; cbn [t_first tree_upd set_t_nodes];
        destruct (opt_nat_eqb (t_first t0) (Some x)); cbn [t_nodes set_t_first set_t_nodes tree_upd]; rewrite ?G; auto;
        apply (lasts_upd m p _ (fun o => if opt_nat_eqb o (Some x) then Some n else o)); intros l;
        destruct (opt_nat_eqb (l_first l) (Some x)); simpl; destruct (opt_nat_eqb (l_last l) (Some x)); auto.
  - destruct (l_parent lid) as [p|], (l_prev lid) as [q|]; cbn [t_first tree_upd set_t_nodes];
        destruct (opt_nat_eqb (t_first t0) (Some x)); auto.
  - destruct (l_parent lid) as [p|], (l_prev lid) as [q|]; cbn [t_first tree_upd set_t_nodes];
        destruct (opt_nat_eqb (t_first t0) (Some x)); auto.
Qed.

Lemma open_ends h b s d sp : ok h b -> csim b s -> 
  ends_of (b_tree (fst (open_with F d sp b))) = match snd (h_open_with F d sp s) with RNode n => e_add s n (ends_of (b_tree b)) | _ => ends_of (b_tree b) end.
Proof.
  intros Hok HS. unfold h_open_with, open_with. rewrite (h_full_spec F _ _ HS). destruct (_ <=? _)%N eqn:Ef.
  - rewrite insert_full by auto. auto.
  - destruct (insert_room F HF b d sp h Hok Ef) as (b' & E). rewrite E. simpl. rewrite (cs_len _ _ HS). eapply insert_ends; eauto.
Qed.
Lemma close_keeps b : ends_of (b_tree (fst (close (T := T) b))) = ends_of (b_tree b).
Proof.
  unfold close. destruct (b_parent b) as [p|]; auto. cbv zeta. cbn [b_tree set_b_parent set_b_sibling]. destruct (nth_error (t_nodes (b_tree b)) p) as [l|]; auto.
  destruct (l_parent l) as [q|]; auto. destruct (nth_error (t_nodes (b_tree b)) q); auto. simpl. unfold ends_of. simpl. rewrite lasts_keep; auto.
Qed.
Lemma token_ends h b s d len : ok h b -> csim b s -> 
  ends_of (b_tree (fst (token F d len b))) = match snd (h_token F d len s) with RNode n => e_note F (fst (h_token F d len s)) (OToken d len) n (e_add s n (ends_of (b_tree b))) | _ => ends_of (b_tree b) end.
Proof.
  intros Hok HS. unfold token, h_token. cbv zeta.
  pose proof (h_full_spec F _ _ HS) as HFu. rewrite <- (cs_cursor _ _ HS). destruct (len_is_empty F len) eqn:El.
  - rewrite HFu. destruct (_ <=? _)%N eqn:Ef.
    + rewrite insert_full by auto. auto.
    + destruct (insert_room F HF b d (Span (b_cursor b) (b_cursor b)) h Hok Ef) as (b' & E). rewrite E. simpl. unfold e_note. rewrite ?El. rewrite (cs_len _ _ HS).
      rewrite (insert_ends _ _ _ _ _ _ HS E). destruct (fl_indexes F); auto.
  - destruct (ix_checked_add_len F (b_cursor b) len) as [c|]; auto. rewrite HFu.
    set (b0 := set_b_tree (set_t_span (set_end (t_span (b_tree (set_b_cursor c b))) c) (b_tree (set_b_cursor c b))) (set_b_cursor c b)).
    pose proof (stretch_sim _ _ c (move_sim _ _ c HS)) as HS1.
    assert (H0 : ok h b0) by (eapply ok_ext; [exact Hok|..]; simpl; auto; apply same_ptrs_refl).
    change (tree_len (b_tree b)) with (tree_len (b_tree b0)). destruct (_ <=? _)%N eqn:Ef.
    + rewrite insert_full by auto. auto.
    + destruct (insert_room F HF b0 d (Span (b_cursor b) (b_cursor b0)) h H0 Ef) as (b' & E). rewrite E.
      destruct (ok_bounds _ _ H0) as [Hp Hs]. destruct (insert_look F HF _ _ _ _ _ Hp Hs E) as (_ & _ & _ & _ & _ & _ & Ec & _).
      cbn [b_tree set_b_sibling b_cursor]. rewrite Ec. change (b_cursor b0) with c.
      destruct (push_index_cases F HF (b_tree b') c (tree_len (b_tree b0))) as (t' & Et & _). rewrite Et.
      simpl. rewrite (push_ends _ _ _ _ Et). pose proof (insert_ends _ _ _ _ _ _ HS1 E) as G. rewrite G. unfold e_note. rewrite ?El. rewrite (cs_len _ _ HS). destruct (fl_indexes F); auto.
Qed.
Lemma token_with_ends h b s d sp : ok h b -> csim b s -> 
  ends_of (b_tree (fst (token_with F d sp b))) = match snd (h_token_with F d sp s) with RNode n => e_note F (fst (h_token_with F d sp s)) (OTokenWith d sp) n (e_add s n (ends_of (b_tree b))) | _ => ends_of (b_tree b) end.
Proof.
  intros Hok HS. unfold token_with, h_token_with. rewrite (h_full_spec F _ _ HS). destruct (_ <=? _)%N eqn:Ef.
  - rewrite insert_full by auto. auto.
  - destruct (insert_room F HF b d sp h Hok Ef) as (b' & E). rewrite E. cbv zeta. cbn [b_tree set_b_sibling b_parent].
    destruct (push_index_cases F HF (b_tree b') (s_start sp) (tree_len (b_tree b))) as (t' & Et & _). rewrite Et.
    assert (G : ends_of (match b_parent b' with Some p => tree_upd p (fun l => set_l_span (span_join (l_span l) sp) l) t' | None => t' end) = ends_of t').
    { destruct (b_parent b'); auto. unfold ends_of. simpl. rewrite lasts_keep; auto. }
    simpl. rewrite G, (push_ends _ _ _ _ Et), (insert_ends _ _ _ _ _ _ HS E), (cs_len _ _ HS). unfold e_note. destruct (fl_indexes F); auto.
Qed.
Lemma close_at_ends w s a id lv d osp : wplaced w -> csim (w_builder w) s -> w_heap w = map to_cell (h_cells s) -> nth_error (h_cells s) a = Some (id, lv) ->
  forall k, nth_error (h_handles s) k = Some a ->
  ends_of (b_tree (snd (fst (close_at_gen F a d osp (w_heap w) (w_builder w))))) =
  match snd (h_close_at F k d osp s) with
  | RNode n => match run_at id (h_forest s) with Some (x, later) => e_wrap s x later n (ends_of (b_tree (w_builder w))) | None => e_add s n (ends_of (b_tree (w_builder w))) end
  | _ => ends_of (b_tree (w_builder w))
  end.
Proof.
  intros Hw HS Hh Ea k Ek. pose proof (close_at_sim F HF w s a id lv d osp Hw HS Hh Ea k Ek) as Sim.
  destruct (csim_ids _ _ Hw HS) as [_ Hids]. destruct Hw as [[Hok _] HP]. set (b := w_builder w) in *. set (h := w_heap w) in *.
  assert (Eh : nth_error h a = Some (Cell id lv)) by (rewrite Hh, nth_error_map, Ea; auto).
  pose proof (run_at_spec _ _ _ id (cs_sees _ _ HS)) as GR.
  destruct (close_at_cases F HF h b a (Cell id lv) d osp Hok Eh) as [(e & E & He)|[(b' & E & HI)|(lid & h' & b' & Hpa & Eid & E & HW)]]; rewrite E in Sim |- *; cbn [fst snd].
  - destruct (h_close_at F k d osp s) as [s' r']. destruct Sim as (<- & _). auto.
  - destruct (h_close_at F k d osp s) as [s' r']. destruct Sim as (<- & _). cbn [out_node snd].
    (* nothing stands there *)
    destruct (nth_error (t_nodes (b_tree b)) id) as [lid|] eqn:Eid.
    { exfalso. destruct (close_firsts F HF _ _ _ _ _ _ _ _ _ _ Hok Eh Eid E) as [F1 _]. simpl in F1.
      destruct HI as ((HL & _ & H2) & _). destruct (nth_in (t_nodes (b_tree b')) (length (t_nodes (b_tree b)))) as [l' E']; [lia|].
      destruct (H2 _ E') as (_ & _ & _ & G & _). apply (f_equal (fun v => nth_error v (length (t_nodes (b_tree b))))) in F1.
      unfold firsts at 1 in F1. rewrite nth_error_map, E' in F1. simpl in F1. rewrite G in F1.
      rewrite nth_error_app2 in F1; rewrite opt_upd_length in *; unfold firsts in *; rewrite map_length in *; auto. rewrite Nat.sub_diag in F1. discriminate. }
    destruct (run_at id (h_forest s)) as [[X later]|].
    { exfalso. destruct GR as (_ & _ & G). apply Hids in G. apply nth_error_None in Eid. unfold tree_len in G. fold b in G. lia. }
    revert E. unfold close_at_gen. rewrite Eh. cbn [c_node]. destruct (negb _); [discriminate|]. destruct (pointer_new F _) as [pn|]; [|discriminate]. rewrite Eid.
    destruct (insert F d _ b) as [b2 [n|e|]] eqn:Ei; [|discriminate..]. destruct (Nat.eqb n id); [|discriminate].
    intros E. injection E as E. cbn [b_tree set_b_sibling]. rewrite <- E. eapply insert_ends; eauto.
  - destruct (h_close_at F k d osp s) as [s' r']. destruct Sim as (<- & _). cbn [out_node snd]. cbn [c_node] in Eid.
    destruct (run_at id (h_forest s)) as [[X later]|].
    2:{ exfalso. apply GR, Hids. eapply nth_lt; eauto. }
    destruct GR as (G1 & G2 & _). eapply close_ends; eauto.
Qed.

Lemma step_ends w s o : wplaced w -> sim w s ->
  ends_of (b_tree (w_builder (fst (step F w o)))) = let '(s', r) := h_step F s o in e_step F s o s' r (ends_of (b_tree (w_builder w))).
Proof.
  intros Hw HS. destruct HS as [HS Hh He Hm]. assert (Hw' := Hw). destruct Hw' as [[Hok Henv] HP]. destruct w as [h b env]. simpl in Hok, Henv, HP, HS, Hh, He, Hm.
  assert (N0 : forall sh n e (o' : op T), (match o' with OToken _ _ | OTokenWith _ _ => False | _ => True end) -> e_note F sh o' n e = e) by (intros; unfold e_note; destruct (fl_indexes F), o'; tauto).
  destruct o; simpl step; simpl h_step; cbn [w_builder].
  - change (open F d b) with (open_with F d (span_point (b_cursor b)) b). rewrite <- (cs_cursor _ _ HS).
    pose proof (open_ends h b s d (span_point (b_cursor b)) Hok HS) as A. destruct (open_with F d _ b) as [b' r]. simpl in A |- *.
    destruct (h_open_with F d _ s) as [s' r']. cbn [fst snd] in A. rewrite A. unfold e_step. cbn [run_of]. destruct r'; auto. rewrite N0; simpl; auto.
  - pose proof (open_ends h b s d sp Hok HS) as A. destruct (open_with F d _ b) as [b' r]. simpl in A |- *.
    destruct (h_open_with F d _ s) as [s' r']. cbn [fst snd] in A. rewrite A. unfold e_step. cbn [run_of]. destruct r'; auto. rewrite N0; simpl; auto.
  - pose proof (close_keeps b) as A. destruct (close b) as [b' r]. simpl in A |- *. rewrite A.
    assert (G : forall n, snd (h_close s) <> RNode n) by (intros n; unfold h_close; destruct (h_open s); simpl; [discriminate|]; destruct (find _ _); discriminate).
    destruct (h_close s) as [s' r']. simpl in G. unfold e_step. destruct r'; auto. exfalso; eapply G; eauto.
  - pose proof (token_ends h b s d len Hok HS) as A. destruct (token F d len b) as [b' r]. cbn [fst snd w_builder] in A |- *.
    destruct (h_token F d len s) as [s' r']. cbn [fst snd] in A. rewrite A. unfold e_step. cbn [run_of]. auto.
  - unfold token_empty. change len_EMPTY with 0%N. pose proof (token_ends h b s d 0%N Hok HS) as A. destruct (token F d 0%N b) as [b' r]. cbn [fst snd w_builder] in A |- *.
    destruct (h_token F d 0%N s) as [s' r']. cbn [fst snd] in A. rewrite A. unfold e_step. cbn [run_of]. destruct r'; auto. unfold e_note, len_is_empty. destruct (fl_indexes F), (fl_index F); auto.
  - pose proof (token_with_ends h b s d sp Hok HS) as A. destruct (token_with F d sp b) as [b' r]. cbn [fst snd w_builder] in A |- *.
    destruct (h_token_with F d sp s) as [s' r']. cbn [fst snd] in A. rewrite A. unfold e_step. cbn [run_of]. auto.
  - assert (G : forall n, snd (h_checkpoint F s) <> RNode n).
    { intros n. unfold h_checkpoint. destruct (h_full F s); [discriminate|]. cbv zeta. destruct (last_error (h_cells s)) as [[? ?]|]; [destruct (_ && _)|]; discriminate. }
    destruct (h_checkpoint F s) as [s' r']. simpl in G. unfold e_step.
    assert (G2 : b_tree (snd (fst (checkpoint F h b))) = b_tree b).
    { unfold checkpoint. destruct (pointer_new F _); auto. destruct (b_checkpoint b) as [a|]; auto. destruct (nth_error h a); auto. destruct (_ && _); auto. }
    destruct (checkpoint F h b) as [[h' b'] r]. simpl in G2. replace (match r' with RNode n => _ | _ => ends_of (b_tree b) end) with (ends_of (b_tree b)) by (destruct r'; auto; exfalso; eapply G; eauto).
    destruct r; simpl; rewrite G2; auto.
  - rewrite He. destruct (nth_error (h_handles s) k) as [a|] eqn:Ek.
    2:{ unfold h_close_at. rewrite Ek. auto. }
    assert (Ha : exists id lv, nth_error (h_cells s) a = Some (id, lv)).
    { destruct (nth_in (h_cells s) a) as [[id lv] E]; eauto. rewrite <- (map_length to_cell), <- Hh. apply Henv. rewrite He. eapply nth_error_In; eauto. }
    destruct Ha as (id & lv & Ea). pose proof (close_at_ends (World h b env) s a id lv d None Hw HS Hh Ea k Ek) as A. cbn [w_heap w_builder] in A. unfold close_at.
    destruct (close_at_gen F a d None h b) as [[h' b'] r]. destruct (h_close_at F k d None s) as [s' r']. simpl in A |- *. rewrite A. unfold e_step. simpl run_of. rewrite Ek, Ea.
    destruct r'; auto. destruct (run_at id (h_forest s)) as [[X later]|]; rewrite N0; simpl; auto.
  - rewrite He. destruct (nth_error (h_handles s) k) as [a|] eqn:Ek.
    2:{ unfold h_close_at. rewrite Ek. auto. }
    assert (Ha : exists id lv, nth_error (h_cells s) a = Some (id, lv)).
    { destruct (nth_in (h_cells s) a) as [[id lv] E]; eauto. rewrite <- (map_length to_cell), <- Hh. apply Henv. rewrite He. eapply nth_error_In; eauto. }
    destruct Ha as (id & lv & Ea). pose proof (close_at_ends (World h b env) s a id lv d (Some sp) Hw HS Hh Ea k Ek) as A. cbn [w_heap w_builder] in A. unfold close_at_with.
    destruct (close_at_gen F a d (Some sp) h b) as [[h' b'] r]. destruct (h_close_at F k d (Some sp) s) as [s' r']. simpl in A |- *. rewrite A. unfold e_step. simpl run_of. rewrite Ek, Ea.
    destruct r'; auto. destruct (run_at id (h_forest s)) as [[X later]|]; rewrite N0; simpl; auto.
  - auto.
Qed.

Lemma run_ends ops : forall w s, wplaced w -> sim w s ->
  ends_of (b_tree (w_builder (fst (run F w ops)))) = e_run F s (ends_of (b_tree (w_builder w))) ops.
Proof.
  induction ops as [|o ops IH]; intros w s Hw HS; simpl; auto.
  pose proof (step_sim F HF w s o Hw HS) as A. pose proof (step_ends w s o Hw HS) as B.
  assert (Hw1 : wplaced (fst (step F w o))) by (split; [apply step_ok; auto; apply Hw|apply step_placed; auto]).
  destruct (step F w o) as [w1 r1]. destruct (h_step F s o) as [s1 r1']. destruct A as [-> A]. simpl in Hw1, B. specialize (IH w1 s1 Hw1 A).
  destruct (run F w1 ops) as [w2 rs]. simpl in IH |- *. rewrite IH, B. auto.
Qed.
End Ends.
