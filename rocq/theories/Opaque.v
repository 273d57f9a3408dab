(** The builder does not look at the values: two runs whose calls differ only in the
    values give the same results and link tables that differ only in the values. *)
From Coq Require Import Lia.
From Verif Require Import Base Pointer Index Tree Builder Hist Node Spec SpecMap.

Section Opaque.
Context {T U : Type}.
Variable F : flavor.

Definition lrel (l : links T) (m : links U) : Prop :=
  l_span l = l_span m /\ l_parent l = l_parent m /\ l_prev l = l_prev m /\ l_next l = l_next m /\
  l_first l = l_first m /\ l_last l = l_last m.
Definition nrel (ns : list (links T)) (ms : list (links U)) : Prop := Forall2 lrel ns ms.
Definition trel (t : tree T) (u : tree U) : Prop :=
  nrel (t_nodes t) (t_nodes u) /\ t_span t = t_span u /\ t_indexes t = t_indexes u /\
  t_first t = t_first u /\ t_last t = t_last u.
Definition brel (b : builder T) (c : builder U) : Prop :=
  trel (b_tree b) (b_tree c) /\ b_checkpoint b = b_checkpoint c /\ b_parent b = b_parent c /\
  b_sibling b = b_sibling c /\ b_cursor b = b_cursor c.
Definition wrel (w : world T) (v : world U) : Prop :=
  w_heap w = w_heap v /\ brel (w_builder w) (w_builder v) /\ w_env w = w_env v.

Lemma nrel_len ns ms : nrel ns ms -> length ns = length ms.
Proof. induction 1; simpl; auto 12. Qed.
Lemma nrel_upd ns ms f g i : nrel ns ms -> (forall l m, lrel l m -> lrel (f l) (g m)) -> nrel (upd ns i f) (upd ms i g).
Proof. intros H Hf. revert i. induction H; intros [|i]; simpl; constructor; auto 12. apply IHForall2. Qed.
Lemma nrel_nth ns ms i : nrel ns ms ->
  (nth_error ns i = None /\ nth_error ms i = None) \/
  exists l m, nth_error ns i = Some l /\ nth_error ms i = Some m /\ lrel l m.
Proof. intros H. revert i. induction H; intros [|i]; simpl; auto 12. right; eauto. Qed.

Lemma trel_upd t u f g i : trel t u -> (forall l m, lrel l m -> lrel (f l) (g m)) -> trel (tree_upd i f t) (tree_upd i g u).
Proof. intros (A & B & C & D & E) H. unfold trel, tree_upd; simpl. intuition. apply nrel_upd; auto 12. Qed.

Lemma push_rel t u l m : trel t u -> lrel l m ->
  (tree_push F l t = None /\ tree_push F m u = None) \/
  exists t' u', tree_push F l t = Some t' /\ tree_push F m u = Some u' /\ trel t' u'.
Proof.
  intros (A & B & C & D & E) H. unfold tree_push, storage_push.
  assert (G : nrel (t_nodes t ++ [l]) (t_nodes u ++ [m])) by (apply Forall2_app; auto; constructor; auto).
  destruct (fl_storage F); simpl.
  - right. do 2 eexists. split; [reflexivity|]. split; [reflexivity|]. unfold trel; simpl; auto 12.
  - right. do 2 eexists. split; [reflexivity|]. split; [reflexivity|]. unfold trel; simpl; auto 12.
  - rewrite <- (nrel_len _ _ A). destruct (Nat.ltb (length (t_nodes t)) cap); simpl; auto 12.
    right. do 2 eexists. split; [reflexivity|]. split; [reflexivity|]. unfold trel; simpl; auto 12.
Qed.

Lemma push_index_rel t u ix id : trel t u ->
  (tree_push_index F ix id t = None /\ tree_push_index F ix id u = None) \/
  exists t' u', tree_push_index F ix id t = Some t' /\ tree_push_index F ix id u = Some u' /\ trel t' u'.
Proof.
  intros (A & B & C & D & E). unfold tree_push_index. rewrite C. destruct (storage_push _ _ _); simpl; auto 12.
  right. do 2 eexists. split; [reflexivity|]. split; [reflexivity|]. unfold trel; simpl; auto 12.
Qed.

Ltac brel_tac := unfold brel, trel in *; simpl in *; intuition.

Lemma insert_rel b c d e sp : brel b c ->
  brel (fst (insert F d sp b)) (fst (insert F e sp c)) /\ snd (insert F d sp b) = snd (insert F e sp c).
Proof.
  intros (Ht & Hc & Hp & Hs & Hcur). unfold insert. unfold tree_len. rewrite <- (nrel_len _ _ (proj1 Ht)).
  destruct (pointer_new F (length (t_nodes (b_tree b)))) as [new|]; simpl; [|unfold brel; auto 12].
  rewrite <- Hp, <- Hs.
  destruct (push_rel (b_tree b) (b_tree c) (Links d sp (b_parent b) (b_sibling b) None None None)
              (Links e sp (b_parent b) (b_sibling b) None None None) Ht) as [[-> ->]|(t' & u' & -> & -> & Ht')].
  { unfold lrel; simpl; auto 10. }
  { simpl. split; auto 12. unfold brel; simpl; auto 12. }
  simpl. split; auto 12. unfold brel; simpl. split; auto 12.
  assert (G : trel
    match b_parent b with
    | Some id => tree_upd id (fun l => set_l_span (set_end (l_span (set_l_last (Some new) match l_first l with None => set_l_first (Some new) l | Some _ => l end)) (s_end sp)) (set_l_last (Some new) match l_first l with None => set_l_first (Some new) l | Some _ => l end)) t'
    | None => set_t_last (Some new) match t_first t' with None => set_t_first (Some new) t' | Some _ => t' end
    end
    match b_parent b with
    | Some id => tree_upd id (fun l => set_l_span (set_end (l_span (set_l_last (Some new) match l_first l with None => set_l_first (Some new) l | Some _ => l end)) (s_end sp)) (set_l_last (Some new) match l_first l with None => set_l_first (Some new) l | Some _ => l end)) u'
    | None => set_t_last (Some new) match t_first u' with None => set_t_first (Some new) u' | Some _ => u' end
    end).
  { destruct (b_parent b).
    - apply trel_upd; auto 12. intros l m (A & B & C & D & E & G). rewrite E. destruct (l_first m) eqn:Em; unfold lrel; simpl; rewrite ?A, ?E, ?Em; auto 10.
    - destruct Ht' as (A & B & C & D & E). rewrite D. destruct (t_first u') eqn:Eu; unfold trel; simpl; rewrite ?D, ?Eu; auto 10. }
  destruct (b_sibling b); [apply trel_upd; auto 12|auto].
  intros l m (A & B & C & D & E & I). unfold lrel; simpl; auto 10.
Qed.

Lemma open_with_rel b c d e sp : brel b c ->
  brel (fst (open_with F d sp b)) (fst (open_with F e sp c)) /\ snd (open_with F d sp b) = snd (open_with F e sp c).
Proof.
  intros H. unfold open_with. destruct (insert_rel b c d e sp H) as [A B].
  destruct (insert F d sp b) as [b1 r1], (insert F e sp c) as [c1 r2]. simpl in *. subst r2.
  destruct r1; simpl; auto 12. split; auto 12. destruct A as (A & A1 & A2 & A3 & A4). unfold brel; simpl; auto 12.
Qed.

Lemma close_rel b c : brel b c -> brel (fst (close b)) (fst (close c)) /\ snd (close b) = snd (close c).
Proof.
  intros (Ht & Hc & Hp & Hs & Hcur). unfold close. rewrite <- Hp. destruct (b_parent b) as [h|] eqn:Eb.
  2:{ simpl. split; auto. unfold brel. rewrite Eb, <- Hp. auto 12. }
  simpl. destruct (nrel_nth _ _ h (proj1 Ht)) as [[-> ->]|(l & m & -> & -> & Hl)].
  { simpl. split; auto 12. unfold brel; simpl; auto 12. }
  destruct Hl as (A & B & C & D & E & I). rewrite <- B. destruct (l_parent l) as [id|].
  - destruct (nrel_nth _ _ id (proj1 Ht)) as [[-> ->]|(l2 & m2 & -> & -> & Hl2)].
    { simpl. split; auto 12. unfold brel; simpl; auto 12. }
    simpl. split; auto 12. unfold brel; simpl. rewrite A. split; auto 12. apply trel_upd; auto 12.
    intros l' m' (A' & B' & C' & D' & E' & I'). unfold lrel; simpl. rewrite A'. auto 10.
  - simpl. split; auto 12. unfold brel; simpl. rewrite A. auto.
Qed.

Lemma token_rel b c d e len : brel b c ->
  brel (fst (token F d len b)) (fst (token F e len c)) /\ snd (token F d len b) = snd (token F e len c).
Proof.
  intros H. pose proof H as (Ht & Hc & Hp & Hs & Hcur). unfold token. rewrite <- Hcur.
  assert (G : forall b c, brel b c -> b_cursor b = b_cursor c -> forall start,
    brel (fst (match insert F d (Span start (b_cursor b)) b with
          | (b, Ok id) => let b := set_b_sibling (Some id) b in
             if len_is_empty F len then (b, Ok id)
             else match tree_push_index F (b_cursor b) id (b_tree b) with None => (b, Err FlavorError) | Some t => (set_b_tree t b, Ok id) end
          | r => r end))
         (fst (match insert F e (Span start (b_cursor c)) c with
          | (b, Ok id) => let b := set_b_sibling (Some id) b in
             if len_is_empty F len then (b, Ok id)
             else match tree_push_index F (b_cursor b) id (b_tree b) with None => (b, Err FlavorError) | Some t => (set_b_tree t b, Ok id) end
          | r => r end)) /\
    snd (match insert F d (Span start (b_cursor b)) b with
          | (b, Ok id) => let b := set_b_sibling (Some id) b in
             if len_is_empty F len then (b, Ok id)
             else match tree_push_index F (b_cursor b) id (b_tree b) with None => (b, Err FlavorError) | Some t => (set_b_tree t b, Ok id) end
          | r => r end) =
         snd (match insert F e (Span start (b_cursor c)) c with
          | (b, Ok id) => let b := set_b_sibling (Some id) b in
             if len_is_empty F len then (b, Ok id)
             else match tree_push_index F (b_cursor b) id (b_tree b) with None => (b, Err FlavorError) | Some t => (set_b_tree t b, Ok id) end
          | r => r end)).
  { clear. intros b c H Hcur start. rewrite <- Hcur. destruct (insert_rel b c d e (Span start (b_cursor b)) H) as [A B].
    destruct (insert F d (Span start (b_cursor b)) b) as [b1 r1], (insert F e (Span start (b_cursor b)) c) as [c1 r2]. simpl in A, B. subst r2.
    destruct r1 as [id| |]; auto 12. simpl. destruct A as (A & A1 & A2 & A3 & A4).
    destruct (len_is_empty F len); [simpl; unfold brel; simpl; auto 12|].
    rewrite <- A4. destruct (push_index_rel (b_tree b1) (b_tree c1) (b_cursor b1) id A) as [[-> ->]|(t' & u' & -> & -> & Ht)];
      simpl; unfold brel; simpl; auto 12. }
  destruct (len_is_empty F len) eqn:El.
  - specialize (G b c H Hcur (b_cursor b)). rewrite <- Hcur in G. exact G.
  - destruct (ix_checked_add_len F (b_cursor b) len) as [c2|]; [|simpl; auto 12].
    refine (G (set_b_tree (set_t_span (set_end (t_span (b_tree b)) c2) (b_tree b)) (set_b_cursor c2 b))
              (set_b_tree (set_t_span (set_end (t_span (b_tree c)) c2) (b_tree c)) (set_b_cursor c2 c)) _ eq_refl (b_cursor b)).
    unfold brel, trel in *; simpl. destruct Ht as (A & B & C & D & E). rewrite B. auto 10.
Qed.

Lemma token_with_rel b c d e sp : brel b c ->
  brel (fst (token_with F d sp b)) (fst (token_with F e sp c)) /\ snd (token_with F d sp b) = snd (token_with F e sp c).
Proof.
  intros H. unfold token_with. destruct (insert_rel b c d e sp H) as [A B].
  destruct (insert F d sp b) as [b1 r1], (insert F e sp c) as [c1 r2]. simpl in A, B. subst r2.
  destruct r1 as [id| |]; auto 12. destruct A as (A & A1 & A2 & A3 & A4). cbv zeta. cbn [set_b_sibling b_tree b_cursor b_parent].
  destruct (push_index_rel (b_tree b1) (b_tree c1) (s_start sp) id A) as [[-> ->]|(t' & u' & -> & -> & Ht)].
  { simpl; unfold brel; simpl; auto 12. }
  simpl. rewrite <- A2. split; auto 12. unfold brel; simpl. split; auto 12. destruct (b_parent b1); auto 12. apply trel_upd; auto 12.
  intros l' m' (A' & B' & C' & D' & E' & I'). unfold lrel; simpl. rewrite A'. auto 10.
Qed.

Lemma checkpoint_rel h b c : brel b c ->
  fst (fst (checkpoint F h b)) = fst (fst (checkpoint F h c)) /\
  brel (snd (fst (checkpoint F h b))) (snd (fst (checkpoint F h c))) /\ snd (checkpoint F h b) = snd (checkpoint F h c).
Proof.
  intros H. pose proof H as (Ht & Hc & Hp & Hs & Hcur). unfold checkpoint. unfold tree_len.
  rewrite <- (nrel_len _ _ (proj1 Ht)), <- Hc, <- Hp.
  destruct (pointer_new F (length (t_nodes (b_tree b)))) as [node|]; [|simpl; auto 12].
  destruct (b_checkpoint b) as [a|]; [destruct (nth_error h a) as [c0|]; [destruct (Nat.eqb (c_node c0) node && opt_nat_eqb (c_parent c0) (b_parent b))|]|];
    simpl; split; auto; split; auto; unfold brel; simpl; auto 12.
Qed.

Lemma restructure_rel fuel p : forall x ns ms, nrel ns ms ->
  nrel (fst (restructure fuel p x ns)) (fst (restructure fuel p x ms)) /\ snd (restructure fuel p x ns) = snd (restructure fuel p x ms).
Proof.
  induction fuel as [|fuel IH]; intros x ns ms H; simpl; auto 12.
  destruct (nrel_nth _ _ x H) as [[-> ->]|(l & m & -> & -> & Hl)]; simpl; auto 12.
  assert (G : nrel (upd ns x (set_l_parent (Some p))) (upd ms x (set_l_parent (Some p)))).
  { apply nrel_upd; auto 12. intros l' m' (A & B & C & D & E & I). unfold lrel; simpl; auto 10. }
  destruct Hl as (A & B & C & D & E & I). rewrite <- D. destruct (l_next l); auto 12. simpl. rewrite A. auto.
Qed.

Lemma close_at_rel a h b c d e osp : brel b c ->
  fst (fst (close_at_gen F a d osp h b)) = fst (fst (close_at_gen F a e osp h c)) /\
  brel (snd (fst (close_at_gen F a d osp h b))) (snd (fst (close_at_gen F a e osp h c))) /\
  snd (close_at_gen F a d osp h b) = snd (close_at_gen F a e osp h c).
Proof.
  intros H. pose proof H as (Ht & Hc & Hp & Hs & Hcur). unfold close_at_gen.
  destruct (nth_error h a) as [ce|]; [|simpl; auto 12]. rewrite <- Hp.
  destruct (negb (opt_nat_eqb (c_parent ce) (b_parent b))); [simpl; auto 12|].
  unfold tree_len. rewrite <- (nrel_len _ _ (proj1 Ht)).
  destruct (pointer_new F (length (t_nodes (b_tree b)))) as [new_id|]; [|simpl; auto 12].
  destruct (nrel_nth _ _ (c_node ce) (proj1 Ht)) as [[-> ->]|(l & m & -> & -> & Hl)].
  - rewrite <- Hcur. set (sp := match osp with Some sp => sp | None => span_point (b_cursor b) end).
    destruct (insert_rel b c d e sp H) as [A B].
    destruct (insert F d sp b) as [b1 r1], (insert F e sp c) as [c1 r2]. simpl in A, B. subst r2.
    destruct r1 as [id| |]; simpl; auto 12. destruct (Nat.eqb id (c_node ce)); simpl; auto 12.
    split; auto 12. split; auto 12. destruct A as (A & A1 & A2 & A3 & A4). unfold brel; simpl; auto 12.
  - set (id := c_node ce) in *. destruct Hl as (L1 & L2 & L3 & L4 & L5 & L6).
    rewrite <- L1, <- L2, <- L3, <- L4.
    set (t1 := tree_upd id (fun l => set_l_prev None (set_l_parent (Some new_id) l)) (b_tree b)).
    set (u1 := tree_upd id (fun l => set_l_prev None (set_l_parent (Some new_id) l)) (b_tree c)).
    assert (H1 : trel t1 u1).
    { apply trel_upd; auto 12. intros l' m' (A & B & C & D & E & I). unfold lrel; simpl; auto 10. }
    assert (HR : exists ns ms r,
      match l_next l with Some next => restructure (S (length (t_nodes t1))) new_id next (t_nodes t1) | None => (t_nodes t1, Ok (id, s_end (l_span l))) end = (ns, r) /\
      match l_next l with Some next => restructure (S (length (t_nodes u1))) new_id next (t_nodes u1) | None => (t_nodes u1, Ok (id, s_end (l_span l))) end = (ms, r) /\
      nrel ns ms).
    { destruct (l_next l) as [nx|].
      - rewrite <- (nrel_len _ _ (proj1 H1)).
        destruct (restructure_rel (S (length (t_nodes t1))) new_id nx _ _ (proj1 H1)) as [A B].
        destruct (restructure _ new_id nx (t_nodes t1)) as [ns r], (restructure _ new_id nx (t_nodes u1)) as [ms r2]. simpl in A, B. subst r2. eauto 10.
      - exists (t_nodes t1), (t_nodes u1), (Ok (id, s_end (l_span l))). split; [auto 12|]. split; auto 12. apply H1. }
    destruct HR as (ns & ms & r & -> & -> & HR).
    assert (H2 : trel (set_t_nodes ns t1) (set_t_nodes ms u1)).
    { destruct H1 as (A & B & C & D & E). unfold trel; simpl; auto 12. }
    set (t2 := set_t_nodes ns t1) in *. set (u2 := set_t_nodes ms u1) in *.
    destruct r as [[last end_]|er|].
    2,3: simpl; split; auto; split; auto; unfold brel; simpl; auto 12.
    set (sp := match osp with Some sp => sp | None => Span (s_start (l_span l)) end_ end).
    match goal with |- context [match l_parent l with Some p => tree_upd p ?f t2 | None => t2 end] => set (ff := f) end.
    match goal with |- context [match l_parent l with Some p => tree_upd p ?f u2 | None => u2 end] => set (gg := f) end.
    set (t3 := match l_parent l with Some p => tree_upd p ff t2 | None => t2 end).
    set (u3 := match l_parent l with Some p => tree_upd p gg u2 | None => u2 end).
    assert (H3 : trel t3 u3).
    { unfold t3, u3. destruct (l_parent l); auto 12. apply trel_upd; auto 12.
      intros l' m' (A & B & C & D & E & I). unfold ff, gg. rewrite E. destruct (opt_nat_eqb (l_first m') (Some id)); simpl; rewrite I;
        destruct (opt_nat_eqb (l_last m') (Some id)); unfold lrel; simpl; auto 10. }
    set (t4 := match l_prev l with Some p => tree_upd p (set_l_next (Some new_id)) t3 | None => t3 end).
    set (u4 := match l_prev l with Some p => tree_upd p (set_l_next (Some new_id)) u3 | None => u3 end).
    assert (H4 : trel t4 u4).
    { unfold t4, u4. destruct (l_prev l); auto 12. apply trel_upd; auto 12.
      intros l' m' (A & B & C & D & E & I). unfold lrel; simpl; auto 10. }
    set (t5 := if opt_nat_eqb (t_first t4) (Some id) then set_t_first (Some new_id) t4 else t4).
    set (u5 := if opt_nat_eqb (t_first u4) (Some id) then set_t_first (Some new_id) u4 else u4).
    assert (H5 : trel t5 u5).
    { unfold t5, u5. destruct H4 as (A & B & C & D & E). rewrite D. destruct (opt_nat_eqb (t_first u4) (Some id)); unfold trel; simpl; auto 10. }
    destruct (push_rel t5 u5 (Links d sp (l_parent l) (l_prev l) None (Some id) (Some last))
      (Links e sp (l_parent l) (l_prev l) None (Some id) (Some last)) H5) as [[-> ->]|(t' & u' & -> & -> & Ht')].
    { unfold lrel; simpl; auto 10. }
    { simpl. split; auto 12. split; auto 12. unfold brel; simpl; auto 12. }
    simpl. split; auto 12. split; auto 12. unfold brel; simpl; auto 12.
Qed.

Lemma step_rel w v o p : wrel w v -> same_call o p ->
  wrel (fst (step F w o)) (fst (step F v p)) /\ snd (step F w o) = snd (step F v p).
Proof.
  intros (Hh & Hb & He) Hs. destruct Hs; simpl; unfold open, token_empty, close_at, close_at_with.
  - pose proof (open_with_rel _ _ d e (span_point (b_cursor (w_builder w))) Hb) as [A B].
    pose proof Hb as (_ & _ & _ & _ & Hcur). rewrite <- Hcur. unfold open_with in A, B.
    destruct (insert F d _ _) as [b1 [r1|r1|]], (insert F e _ _) as [c1 [r2|r2|]]; simpl in *; try discriminate;
      unfold wrel; simpl; split; auto; congruence.
  - pose proof (open_with_rel _ _ d e sp Hb) as [A B].
    destruct (open_with F d sp _) as [b1 r1], (open_with F e sp _) as [c1 r2]; simpl in *. subst. unfold wrel; simpl; auto 12.
  - pose proof (close_rel _ _ Hb) as [A B]. destruct (close _) as [b1 r1], (close _) as [c1 r2]; simpl in *. subst. unfold wrel; simpl; auto 12.
  - pose proof (token_rel _ _ d e len Hb) as [A B].
    destruct (token F d len _) as [b1 r1], (token F e len _) as [c1 r2]; simpl in *. subst. unfold wrel; simpl; auto 12.
  - pose proof (token_rel _ _ d e len_EMPTY Hb) as [A B].
    destruct (token F d len_EMPTY _) as [b1 r1], (token F e len_EMPTY _) as [c1 r2]; simpl in *. subst. unfold wrel; simpl; auto 12.
  - pose proof (token_with_rel _ _ d e sp Hb) as [A B].
    destruct (token_with F d sp _) as [b1 r1], (token_with F e sp _) as [c1 r2]; simpl in *. subst. unfold wrel; simpl; auto 12.
  - rewrite <- Hh. pose proof (checkpoint_rel (w_heap w) _ _ Hb) as (A & B & C).
    destruct (checkpoint F (w_heap w) (w_builder w)) as [[h1 b1] r1], (checkpoint F (w_heap w) (w_builder v)) as [[h2 c1] r2]; simpl in *. subst.
    destruct r2; simpl; unfold wrel; simpl; rewrite ?He; auto 12.
  - rewrite <- He. destruct (nth_error (w_env w) k) as [a|]; [|simpl; unfold wrel; auto 12].
    rewrite <- Hh. pose proof (close_at_rel a (w_heap w) _ _ d e None Hb) as (A & B & C).
    destruct (close_at_gen F a d None (w_heap w) (w_builder w)) as [[h1 b1] r1], (close_at_gen F a e None (w_heap w) (w_builder v)) as [[h2 c1] r2]; simpl in *. subst.
    unfold wrel; simpl; auto 12.
  - rewrite <- He. destruct (nth_error (w_env w) k) as [a|]; [|simpl; unfold wrel; auto 12].
    rewrite <- Hh. pose proof (close_at_rel a (w_heap w) _ _ d e (Some sp) Hb) as (A & B & C).
    destruct (close_at_gen F a d (Some sp) (w_heap w) (w_builder w)) as [[h1 b1] r1], (close_at_gen F a e (Some sp) (w_heap w) (w_builder v)) as [[h2 c1] r2]; simpl in *. subst.
    unfold wrel; simpl; auto 12.
  - destruct Hb as (A & A1 & A2 & A3 & A4). unfold wrel, brel; simpl; auto 10.
Qed.

Lemma run_rel ops qs : Forall2 same_call ops qs -> forall w v, wrel w v ->
  wrel (fst (run F w ops)) (fst (run F v qs)) /\ snd (run F w ops) = snd (run F v qs).
Proof.
  induction 1 as [|o q ops qs Ho Hs IH]; intros w v H; simpl; auto 12.
  destruct (step_rel w v o q H Ho) as [A B]. destruct (step F w o) as [w1 r1], (step F v q) as [v1 r2]. simpl in A, B. subst r2.
  destruct (IH w1 v1 A) as [C D]. destruct (run F w1 ops), (run F v1 qs). simpl in *. subst. auto.
Qed.

Lemma wrel_new : wrel world_new world_new.
Proof. unfold wrel, brel, trel; simpl. repeat (split; auto). constructor. Qed.
End Opaque.
