(** The builder does not look at positions, but to refuse overflows: runs in two flavors whose calls
    differ only in positions go in step until one of them reports an overflow. *)
From Coq Require Import Lia.
From Verif Require Import Base Pointer Index Tree Builder Hist Node Spec SpecEmpty StepFacts Refine.

Section Spanless.
Context {T : Type}.
Variables F G : flavor.
Hypothesis HF : vec_flavor F.
Hypothesis HG : vec_flavor G.
Implicit Types (l m : links T) (t u : tree T) (b c : builder T) (w v : world T).

Definition lsame l m : Prop :=
  l_data l = l_data m /\ l_parent l = l_parent m /\ l_prev l = l_prev m /\ l_next l = l_next m /\
  l_first l = l_first m /\ l_last l = l_last m.
Definition nsame (ns ms : list (links T)) : Prop := Forall2 lsame ns ms.
Definition tsame t u : Prop := nsame (t_nodes t) (t_nodes u) /\ t_first t = t_first u /\ t_last t = t_last u.
Definition bsame b c : Prop :=
  tsame (b_tree b) (b_tree c) /\ b_checkpoint b = b_checkpoint c /\ b_parent b = b_parent c /\ b_sibling b = b_sibling c.
Definition wsame w v : Prop := w_heap w = w_heap v /\ bsame (w_builder w) (w_builder v) /\ w_env w = w_env v.

Lemma nsame_len ns ms : nsame ns ms -> length ns = length ms.
Proof. induction 1; simpl; auto. Qed.
Lemma nsame_upd ns ms f g i : nsame ns ms -> (forall l m, lsame l m -> lsame (f l) (g m)) -> nsame (upd ns i f) (upd ms i g).
Proof. intros H Hf. revert i. induction H; intros [|i]; simpl; constructor; auto. apply IHForall2. Qed.
Lemma nsame_nth ns ms i : nsame ns ms ->
  (nth_error ns i = None /\ nth_error ms i = None) \/
  exists l m, nth_error ns i = Some l /\ nth_error ms i = Some m /\ lsame l m.
Proof. intros H. revert i. induction H; intros [|i]; simpl; auto. right; eauto. Qed.
Lemma tsame_upd t u f g i : tsame t u -> (forall l m, lsame l m -> lsame (f l) (g m)) -> tsame (tree_upd i f t) (tree_upd i g u).
Proof. intros (A & B & C) H. unfold tsame, tree_upd; simpl. split; [apply nsame_upd; auto|auto]. Qed.
Lemma tsame_len t u : tsame t u -> tree_len t = tree_len u.
Proof. intros H. apply nsame_len, H. Qed.

Lemma push_vec (H : flavor) l t : vec_flavor H -> tree_push H l t = Some (set_t_nodes (t_nodes t ++ [l]) t).
Proof. intros [E _]. unfold tree_push, storage_push. rewrite E. auto. Qed.
Lemma push_index_vec (H : flavor) ix id t : vec_flavor H -> exists ls, tree_push_index H ix id t = Some (set_t_indexes ls t).
Proof. intros [_ [E|E]]; unfold tree_push_index, storage_push; rewrite E; eexists; reflexivity. Qed.

(** The outcomes agree, or one of them is an overflow. *)
Definition agree {S A B} (R : S -> S -> Prop) (x : S * result A) (y : S * result B) (same : result A -> result B -> Prop) : Prop :=
  snd x = Err Overflow \/ snd y = Err Overflow \/ (R (fst x) (fst y) /\ same (snd x) (snd y)).
Notation agrees x y := (agree bsame x y eq).

Lemma insert_same b c d sp sp' : bsame b c -> agrees (insert F d sp b) (insert G d sp' c).
Proof.
  intros (Ht & Hc & Hp & Hs). unfold agree, insert. rewrite <- (tsame_len _ _ Ht), <- Hs.
  destruct (pointer_new F _) as [new|] eqn:E1; [|simpl; auto]. destruct (pointer_new G _) as [new'|] eqn:E2; [|simpl; auto].
  assert (new = tree_len (b_tree b) /\ new' = tree_len (b_tree b)) as [-> ->].
  { unfold pointer_new in *. destruct (ptr_new F _), (ptr_new G _); try discriminate. split; congruence. }
  clear E1 E2. set (n := tree_len (b_tree b)). cbv zeta. cbn [b_tree set_b_sibling b_parent].
  rewrite !push_vec by auto. rewrite <- Hp. right. right. cbn [fst snd]. split; [|auto].
  unfold bsame; cbn [b_tree set_b_tree b_checkpoint b_parent b_sibling set_b_sibling]. split; [|auto].
  set (t' := set_t_nodes (t_nodes (b_tree b) ++ [_]) (b_tree b)). set (u' := set_t_nodes (t_nodes (b_tree c) ++ [_]) (b_tree c)).
  assert (Ht' : tsame t' u').
  { destruct Ht as (A & B & C). unfold t', u', tsame; simpl. split; [|auto]. apply Forall2_app; auto. constructor; [|constructor].
    unfold lsame; simpl; auto 10. }
  clearbody t' u'.
  assert (K : tsame
    match b_parent b with
    | Some id => tree_upd id (fun l => set_l_span (set_end (l_span (set_l_last (Some n) match l_first l with None => set_l_first (Some n) l | Some _ => l end)) (s_end sp)) (set_l_last (Some n) match l_first l with None => set_l_first (Some n) l | Some _ => l end)) t'
    | None => set_t_last (Some n) match t_first t' with None => set_t_first (Some n) t' | Some _ => t' end
    end
    match b_parent b with
    | Some id => tree_upd id (fun l => set_l_span (set_end (l_span (set_l_last (Some n) match l_first l with None => set_l_first (Some n) l | Some _ => l end)) (s_end sp')) (set_l_last (Some n) match l_first l with None => set_l_first (Some n) l | Some _ => l end)) u'
    | None => set_t_last (Some n) match t_first u' with None => set_t_first (Some n) u' | Some _ => u' end
    end).
  { destruct (b_parent b).
    - apply tsame_upd; auto. intros l m (A & B & C & D & E & I). rewrite E. destruct (l_first m) eqn:Em; unfold lsame; simpl; rewrite ?E, ?Em; auto 10.
    - destruct Ht' as (A & B & C). rewrite B. destruct (t_first u') eqn:Eu; unfold tsame; simpl; rewrite ?B, ?Eu; auto 10. }
  destruct (b_sibling b); [apply tsame_upd; auto|auto].
  intros l m (A & B & C & D & E & I). unfold lsame; simpl; auto 10.
Qed.

Lemma open_same b c d sp sp' : bsame b c -> agrees (open_with F d sp b) (open_with G d sp' c).
Proof.
  intros H. unfold open_with. destruct (insert_same b c d sp sp' H) as [E|[E|[A B]]].
  - left. destruct (insert F d sp b) as [? []]; cbn [snd] in *; congruence.
  - right; left. destruct (insert G d sp' c) as [? []]; cbn [snd] in *; congruence.
  - right; right. destruct (insert F d sp b) as [b1 r1], (insert G d sp' c) as [c1 r2]. cbn [fst snd] in *. subst r2.
    destruct r1; cbn [fst snd]; auto. split; auto. destruct A as (A & A1 & A2 & A3). unfold bsame; simpl; auto.
Qed.

Lemma close_same b c : bsame b c -> bsame (fst (close b)) (fst (close c)) /\ snd (close b) = snd (close c).
Proof.
  intros (Ht & Hc & Hp & Hs). unfold close. rewrite <- Hp. destruct (b_parent b) as [h|] eqn:Eb.
  2:{ simpl. split; auto. unfold bsame. rewrite Eb, <- Hp. auto. }
  simpl. destruct (nsame_nth _ _ h (proj1 Ht)) as [[-> ->]|(l & m & -> & -> & Hl)].
  { simpl. split; auto. unfold bsame; simpl; auto. }
  destruct Hl as (A & B & C & D & E & I). rewrite <- B. destruct (l_parent l) as [id|].
  - destruct (nsame_nth _ _ id (proj1 Ht)) as [[-> ->]|(l2 & m2 & -> & -> & Hl2)].
    { simpl. split; auto. unfold bsame; simpl; auto. }
    simpl. split; auto. unfold bsame; simpl. split; auto. apply tsame_upd; auto.
  - simpl. split; auto. unfold bsame; simpl; auto.
Qed.

(** The part of [token] after the cursor has moved. *)
Definition token_rest (H : flavor) (d : T) (sp : span) (len : N) b : builder T * result nat :=
  match insert H d sp b with
  | (b, Ok id) =>
    let b := set_b_sibling (Some id) b in
    if len_is_empty H len then (b, Ok id)
    else
      match tree_push_index H (b_cursor b) id (b_tree b) with
      | None => (b, Err FlavorError)
      | Some t => (set_b_tree t b, Ok id)
      end
  | r => r
  end.
Lemma token_cases (H : flavor) d len b : token H d len b =
  if len_is_empty H len then token_rest H d (Span (b_cursor b) (b_cursor b)) len b
  else match ix_checked_add_len H (b_cursor b) len with
    | None => (b, Err Overflow)
    | Some cc => token_rest H d (Span (b_cursor b) cc) len
        (set_b_tree (set_t_span (set_end (t_span (b_tree b)) cc) (b_tree b)) (set_b_cursor cc b))
    end.
Proof. reflexivity. Qed.

Lemma rest_same b c d sp sp' len len' : bsame b c -> agrees (token_rest F d sp len b) (token_rest G d sp' len' c).
Proof.
  intros H. unfold token_rest. destruct (insert_same b c d sp sp' H) as [E|[E|[A B]]].
  - left. destruct (insert F d sp b) as [? []]; cbn [snd] in *; congruence.
  - right; left. destruct (insert G d sp' c) as [? []]; cbn [snd] in *; congruence.
  - right; right. destruct (insert F d sp b) as [b1 r1], (insert G d sp' c) as [c1 r2]. cbn [fst snd] in *. subst r2.
    destruct r1 as [id|e|]; cbn [fst snd]; auto. cbv zeta.
    destruct (push_index_vec F (b_cursor (set_b_sibling (Some id) b1)) id (b_tree (set_b_sibling (Some id) b1)) HF) as [l1 ->].
    destruct (push_index_vec G (b_cursor (set_b_sibling (Some id) c1)) id (b_tree (set_b_sibling (Some id) c1)) HG) as [l2 ->].
    destruct A as (A & A1 & A2 & A3).
    destruct (len_is_empty F len), (len_is_empty G len'); unfold bsame, tsame in *; simpl; auto 10.
Qed.

Lemma token_same b c d len len' : bsame b c -> agrees (token F d len b) (token G d len' c).
Proof.
  intros H. rewrite !token_cases. unfold agree.
  destruct (len_is_empty F len), (len_is_empty G len').
  - apply rest_same; auto.
  - destruct (ix_checked_add_len G _ _); [|simpl; auto]. apply rest_same. exact H.
  - destruct (ix_checked_add_len F _ _); [|simpl; auto]. apply rest_same. exact H.
  - destruct (ix_checked_add_len F _ _); [|simpl; auto]. destruct (ix_checked_add_len G _ _); [|simpl; auto]. apply rest_same. exact H.
Qed.

Lemma token_with_same b c d sp sp' : bsame b c -> agrees (token_with F d sp b) (token_with G d sp' c).
Proof.
  intros H. unfold token_with. destruct (insert_same b c d sp sp' H) as [E|[E|[A B]]].
  - left. destruct (insert F d sp b) as [? []]; cbn [snd] in *; congruence.
  - right; left. destruct (insert G d sp' c) as [? []]; cbn [snd] in *; congruence.
  - right; right. destruct (insert F d sp b) as [b1 r1], (insert G d sp' c) as [c1 r2]. cbn [fst snd] in *. subst r2.
    destruct r1 as [id|e|]; cbn [fst snd]; auto. cbv zeta. cbn [b_tree set_b_sibling b_parent].
    destruct (push_index_vec F (s_start sp) id (b_tree b1) HF) as [l1 ->].
    destruct (push_index_vec G (s_start sp') id (b_tree c1) HG) as [l2 ->].
    destruct A as (A & A1 & A2 & A3). cbn [fst snd]. split; auto. rewrite <- A2. unfold bsame; simpl. split; [|auto].
    destruct (b_parent b1); [apply tsame_upd; [exact A|]|exact A]. intros l m X. exact X.
Qed.

Lemma checkpoint_same h b c : bsame b c ->
  snd (checkpoint F h b) = Err Overflow \/ snd (checkpoint G h c) = Err Overflow \/
  (fst (fst (checkpoint F h b)) = fst (fst (checkpoint G h c)) /\
   bsame (snd (fst (checkpoint F h b))) (snd (fst (checkpoint G h c))) /\ snd (checkpoint F h b) = snd (checkpoint G h c)).
Proof.
  intros H. pose proof H as (Ht & Hc & Hp & Hs). unfold checkpoint.
  rewrite <- (tsame_len _ _ Ht), <- Hc, <- Hp.
  destruct (pointer_new F _) as [new|] eqn:E1; [|simpl; auto]. destruct (pointer_new G _) as [new'|] eqn:E2; [|simpl; auto].
  assert (new = tree_len (b_tree b) /\ new' = tree_len (b_tree b)) as [-> ->].
  { unfold pointer_new in *. destruct (ptr_new F _), (ptr_new G _); try discriminate. split; congruence. }
  right; right.
  destruct (b_checkpoint b) as [a|]; [destruct (nth_error h a) as [c0|]; [destruct (Nat.eqb (c_node c0) _ && opt_nat_eqb (c_parent c0) (b_parent b))|]|];
    simpl; split; auto; split; auto; unfold bsame; simpl; auto.
Qed.

Definition rsame (r s : result (nat * N)) : Prop :=
  match r, s with
  | Ok (x, _), Ok (y, _) => x = y
  | Err e, Err e' => e = e'
  | Diverge, Diverge => True
  | _, _ => False
  end.

Lemma restructure_same fuel p : forall x ns ms, nsame ns ms ->
  nsame (fst (restructure fuel p x ns)) (fst (restructure fuel p x ms)) /\
  rsame (snd (restructure fuel p x ns)) (snd (restructure fuel p x ms)).
Proof.
  induction fuel as [|fuel IH]; intros x ns ms H; simpl; auto.
  destruct (nsame_nth _ _ x H) as [[-> ->]|(l & m & -> & -> & Hl)]; simpl; auto.
  assert (K : nsame (upd ns x (set_l_parent (Some p))) (upd ms x (set_l_parent (Some p)))).
  { apply nsame_upd; auto. intros l' m' (A & B & C & D & E & I). unfold lsame; simpl; auto 10. }
  destruct Hl as (A & B & C & D & E & I). rewrite <- D. destruct (l_next l); auto. simpl. auto.
Qed.

Lemma close_at_same a h b c d osp osp' : bsame b c ->
  snd (close_at_gen F a d osp h b) = Err Overflow \/ snd (close_at_gen G a d osp' h c) = Err Overflow \/
  (fst (fst (close_at_gen F a d osp h b)) = fst (fst (close_at_gen G a d osp' h c)) /\
   bsame (snd (fst (close_at_gen F a d osp h b))) (snd (fst (close_at_gen G a d osp' h c))) /\
   snd (close_at_gen F a d osp h b) = snd (close_at_gen G a d osp' h c)).
Proof.
  intros H. pose proof H as (Ht & Hc & Hp & Hs). unfold close_at_gen.
  destruct (nth_error h a) as [ce|]; [|simpl; auto]. rewrite <- Hp.
  destruct (negb (opt_nat_eqb (c_parent ce) (b_parent b))); [simpl; auto|].
  rewrite <- (tsame_len _ _ Ht).
  destruct (pointer_new F _) as [new|] eqn:E1; [|simpl; auto]. destruct (pointer_new G _) as [new'|] eqn:E2; [|simpl; auto].
  assert (new = tree_len (b_tree b) /\ new' = tree_len (b_tree b)) as [-> ->].
  { unfold pointer_new in *. destruct (ptr_new F _), (ptr_new G _); try discriminate. split; congruence. }
  set (new_id := tree_len (b_tree b)).
  destruct (nsame_nth _ _ (c_node ce) (proj1 Ht)) as [[-> ->]|(l & m & -> & -> & Hl)].
  - set (sp := match osp with Some sp => sp | None => span_point (b_cursor b) end).
    set (sp' := match osp' with Some sp => sp | None => span_point (b_cursor c) end).
    destruct (insert_same b c d sp sp' H) as [E|[E|[A B]]].
    + left. destruct (insert F d sp b) as [? []]; cbn [snd] in *; congruence.
    + right; left. destruct (insert G d sp' c) as [? []]; cbn [snd] in *; congruence.
    + right; right. destruct (insert F d sp b) as [b1 r1], (insert G d sp' c) as [c1 r2]. cbn [fst snd] in *. subst r2.
      destruct r1 as [id| |]; simpl; auto. destruct (Nat.eqb id (c_node ce)); simpl; auto.
      split; auto. split; auto. destruct A as (A & A1 & A2 & A3). unfold bsame; simpl; auto.
  - right; right. set (id := c_node ce) in *. destruct Hl as (L1 & L2 & L3 & L4 & L5 & L6).
    rewrite <- L2, <- L3, <- L4.
    set (t1 := tree_upd id (fun l => set_l_prev None (set_l_parent (Some new_id) l)) (b_tree b)).
    set (u1 := tree_upd id (fun l => set_l_prev None (set_l_parent (Some new_id) l)) (b_tree c)).
    assert (H1 : tsame t1 u1).
    { apply tsame_upd; auto. intros l' m' (A & B & C & D & E & I). unfold lsame; simpl; auto 10. }
    assert (HR : exists ns ms r r',
      match l_next l with Some next => restructure (S (tree_len t1)) new_id next (t_nodes t1) | None => (t_nodes t1, Ok (id, s_end (l_span l))) end = (ns, r) /\
      match l_next l with Some next => restructure (S (tree_len u1)) new_id next (t_nodes u1) | None => (t_nodes u1, Ok (id, s_end (l_span m))) end = (ms, r') /\
      nsame ns ms /\ rsame r r').
    { destruct (l_next l) as [nx|].
      - rewrite <- (tsame_len _ _ H1).
        destruct (restructure_same (S (tree_len t1)) new_id nx _ _ (proj1 H1)) as [A B].
        destruct (restructure _ new_id nx (t_nodes t1)) as [ns r], (restructure _ new_id nx (t_nodes u1)) as [ms r2]. cbn [fst snd] in *. eauto 10.
      - do 4 eexists. split; [reflexivity|]. split; [reflexivity|]. split; [apply H1|]. simpl; auto. }
    destruct HR as (ns & ms & r & r' & -> & -> & HR & Hr).
    assert (H2 : tsame (set_t_nodes ns t1) (set_t_nodes ms u1)).
    { destruct H1 as (A & B & C). unfold tsame; simpl; auto. }
    set (t2 := set_t_nodes ns t1) in *. set (u2 := set_t_nodes ms u1) in *.
    destruct r as [[last end_]|er|], r' as [[last' end_']|er'|]; try destruct Hr.
    2,3: simpl; split; auto; split; auto; unfold bsame; simpl; auto.
    match goal with |- context [match l_parent l with Some p => tree_upd p ?f t2 | None => t2 end] => set (ff := f) end.
    set (t3 := match l_parent l with Some p => tree_upd p ff t2 | None => t2 end).
    set (u3 := match l_parent l with Some p => tree_upd p ff u2 | None => u2 end).
    assert (H3 : tsame t3 u3).
    { unfold t3, u3. destruct (l_parent l); auto. apply tsame_upd; auto.
      intros l' m' (A & B & C & D & E & I). unfold ff. rewrite E. destruct (opt_nat_eqb (l_first m') (Some id)); simpl; rewrite I;
        destruct (opt_nat_eqb (l_last m') (Some id)); unfold lsame; simpl; auto 10. }
    set (t4 := match l_prev l with Some p => tree_upd p (set_l_next (Some new_id)) t3 | None => t3 end).
    set (u4 := match l_prev l with Some p => tree_upd p (set_l_next (Some new_id)) u3 | None => u3 end).
    assert (H4 : tsame t4 u4).
    { unfold t4, u4. destruct (l_prev l); auto. apply tsame_upd; auto.
      intros l' m' (A & B & C & D & E & I). unfold lsame; simpl; auto 10. }
    set (t5 := if opt_nat_eqb (t_first t4) (Some id) then set_t_first (Some new_id) t4 else t4).
    set (u5 := if opt_nat_eqb (t_first u4) (Some id) then set_t_first (Some new_id) u4 else u4).
    assert (H5 : tsame t5 u5).
    { unfold t5, u5. destruct H4 as (A & B & C). rewrite B. destruct (opt_nat_eqb (t_first u4) (Some id)); unfold tsame; simpl; auto. }
    rewrite !push_vec by auto. cbn [fst snd]. split; [auto|]. split; [|auto]. unfold bsame; simpl. split; [|auto].
    destruct H5 as (A & B & C). unfold tsame; simpl. split; [|auto]. apply Forall2_app; auto. constructor; [|constructor].
    unfold lsame; simpl; auto 10.
Qed.

Lemma step_same w v o p : wsame w v -> same_but_positions o p ->
  snd (step F w o) = RErr Overflow \/ snd (step G v p) = RErr Overflow \/
  (wsame (fst (step F w o)) (fst (step G v p)) /\ snd (step F w o) = snd (step G v p)).
Proof.
  intros (Hh & Hb & He) Hs. unfold wsame.
  assert (K : forall x y, agrees x y ->
    snd (let '(b, r) := x in (World (w_heap w) b (w_env w), out_node r)) = RErr Overflow \/
    snd (let '(b, r) := y in (World (w_heap v) b (w_env v), out_node r)) = RErr Overflow \/
    (wsame (fst (let '(b, r) := x in (World (w_heap w) b (w_env w), out_node r))) (fst (let '(b, r) := y in (World (w_heap v) b (w_env v), out_node r))) /\
     snd (let '(b, r) := x in (World (w_heap w) b (w_env w), out_node r)) = snd (let '(b, r) := y in (World (w_heap v) b (w_env v), out_node r)))).
  { intros [b1 r1] [c1 r2] [E|[E|[A B]]]; cbn [fst snd] in *; subst; auto. right; right. unfold wsame; simpl; auto. }
  destruct Hs.
  - apply (K (open_with F d (span_point (b_cursor (w_builder w))) (w_builder w)) (open_with G d (span_point (b_cursor (w_builder v))) (w_builder v))).
    apply open_same; auto.
  - apply (K (open_with F d sp (w_builder w)) (open_with G d sp' (w_builder v))). apply open_same; auto.
  - right; right. simpl. destruct (close_same _ _ Hb) as [A B].
    destruct (close (w_builder w)), (close (w_builder v)). cbn [fst snd] in *. subst. simpl. auto.
  - apply (K (token F d len (w_builder w)) (token G d len' (w_builder v))). apply token_same; auto.
  - apply (K (token_empty F d (w_builder w)) (token_empty G d (w_builder v))). apply token_same; auto.
  - apply (K (token_with F d sp (w_builder w)) (token_with G d sp' (w_builder v))). apply token_with_same; auto.
  - simpl. rewrite <- Hh. destruct (checkpoint_same (w_heap w) _ _ Hb) as [E|[E|(A & B & C)]];
      destruct (checkpoint F (w_heap w) (w_builder w)) as [[h1 b1] r1], (checkpoint G (w_heap w) (w_builder v)) as [[h2 c1] r2]; cbn [fst snd] in *; subst; auto.
    right; right. destruct r2; simpl; rewrite ?He; auto.
  - simpl. rewrite <- He. destruct (nth_error (w_env w) k) as [a|]; [|simpl; auto 10].
    unfold close_at. rewrite <- Hh. destruct (close_at_same a (w_heap w) _ _ d None None Hb) as [E|[E|(A & B & C)]];
      destruct (close_at_gen F a d None (w_heap w) (w_builder w)) as [[h1 b1] r1], (close_at_gen G a d None (w_heap w) (w_builder v)) as [[h2 c1] r2]; cbn [fst snd] in *; subst; auto.
    right; right; simpl; auto 10.
  - simpl. rewrite <- He. destruct (nth_error (w_env w) k) as [a|]; [|simpl; auto 10].
    unfold close_at_with. rewrite <- Hh. destruct (close_at_same a (w_heap w) _ _ d (Some sp) (Some sp') Hb) as [E|[E|(A & B & C)]];
      destruct (close_at_gen F a d (Some sp) (w_heap w) (w_builder w)) as [[h1 b1] r1], (close_at_gen G a d (Some sp') (w_heap w) (w_builder v)) as [[h2 c1] r2]; cbn [fst snd] in *; subst; auto.
    right; right; simpl; auto 10.
  - right; right. simpl. auto.
Qed.

Lemma run_same ops qs : Forall2 same_but_positions ops qs -> forall w v, wsame w v ->
  ~ In (RErr Overflow) (snd (run F w ops)) -> ~ In (RErr Overflow) (snd (run G v qs)) ->
  wsame (fst (run F w ops)) (fst (run G v qs)) /\ snd (run F w ops) = snd (run G v qs).
Proof.
  induction 1 as [|o q ops qs Ho Hs IH]; intros w v H N1 N2; simpl in *; auto.
  pose proof (step_same w v o q H Ho) as A. destruct (step F w o) as [w1 r1], (step G v q) as [v1 r2]. cbn [fst snd] in *.
  destruct (run F w1 ops) as [w2 rs1] eqn:E1, (run G v1 qs) as [v2 rs2] eqn:E2. cbn [fst snd In] in *.
  destruct A as [->|[->|[A ->]]]; [tauto|tauto|].
  specialize (IH w1 v1 A). rewrite E1, E2 in IH. cbn [fst snd] in IH. destruct IH as [B C]; [tauto|tauto|]. subst. auto.
Qed.

Lemma wsame_new : wsame world_new world_new.
Proof. unfold wsame, bsame, tsame; simpl. repeat (split; auto). constructor. Qed.

Lemma node_opt_same ns ms o : nsame ns ms -> ident (node_opt ns o) = ident (node_opt ms o).
Proof.
  intros H. destruct o as [i|]; auto. simpl. unfold node_at.
  destruct (nsame_nth _ _ i H) as [[-> ->]|(l & m & -> & -> & Hl)]; auto. unfold ident, node_value; simpl. f_equal. f_equal. apply Hl.
Qed.

Lemma same_structure_of t u : tsame t u -> same_structure t u.
Proof.
  intros H. pose proof H as (A & B & C). split; [apply tsame_len; auto|]. unfold tree_first, tree_last. rewrite B, C.
  split; [apply node_opt_same; auto|]. split; [apply node_opt_same; auto|]. intros id.
  split; [apply (node_opt_same _ _ (Some id)); auto|]. unfold tree_get, node_at.
  destruct (nsame_nth _ _ id A) as [[-> ->]|(l & m & -> & -> & Hl)]; auto. cbn [option_map]. f_equal.
  destruct Hl as (_ & L2 & L3 & L4 & L5 & L6). unfold neighbours, node_parent, node_prev, node_next, node_first, node_last. cbn [snd].
  rewrite L2, L3, L4, L5, L6. rewrite !(node_opt_same _ _ _ A). reflexivity.
Qed.
End Spanless.
