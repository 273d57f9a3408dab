(** C37: the Empty flavor. *)
From Coq Require Import Lia.
From Verif Require Import Base Pointer Index Tree Builder Hist Node Iter Query Spec SpecEmpty
  Rep Refine AllHist StepFacts Spanless PropsArith PropsSafe Demo.

(** ** No positions *)

(** Whatever is called: the cursor stays where it is and every span is the empty span. *)
Theorem C37_positions : forall T F (ops : list (op T)), fl_index F = IxEmpty -> Forall (op_wf F) ops ->
  let b := w_builder (run_world F ops) in
  cursor b = 0%N /\ t_span (b_tree b) = Span 0 0 /\
  tree_range F (b_tree b) = (0, 0)%N /\
  forall id n, tree_get (b_tree b) id = Some n -> node_span n = Span 0 0 /\ span_is_empty (node_span n) = true /\
    node_range F n = (0, 0)%N /\ span_len F (node_span n) = 0%N.
Proof.
  intros T F ops HE Hops b. destruct (C35_in_range T F ops Hops) as (A & B & C). fold b in A, B, C.
  assert (E : ix_max F = 0%N) by (unfold ix_max; rewrite HE; auto).
  assert (Z : forall sp, span_wf F sp -> sp = Span 0 0).
  { intros [s e] [H1 H2]. rewrite E in *. cbn [s_start s_end] in *. f_equal; lia. }
  split; [unfold cursor; lia|]. split; [auto|]. unfold tree_range, node_range, span_range, span_len, ix_as_usize, ix_len_to. rewrite HE.
  split; [auto|]. intros id n Hn. rewrite (Z _ (C id n Hn)). auto.
Qed.
Print Assumptions C37_positions.

(** A call reports an overflow only when the pointer width is exhausted: an index cannot overflow.
    Any storage, any state. *)
Theorem C37_no_index_overflow : forall T F (w : world T) o, fl_index F = IxEmpty ->
  snd (step F w o) = RErr Overflow -> ~ room F (b_tree (w_builder w)).
Proof.
  intros T F [h b env] o HE. unfold room. cbn [w_builder]. intros E Hr.
  assert (P : pointer_new F (tree_len (b_tree b)) = Some (tree_len (b_tree b))).
  { rewrite pointer_new_full. destruct (N.leb_spec (int_max F (fl_width F)) (N.of_nat (tree_len (b_tree b)))); auto; lia. }
  assert (I : forall d sp b0, b_tree b0 = b_tree b -> snd (insert F d sp b0) <> Err Overflow).
  { intros d sp b0 Eb. unfold insert. rewrite Eb, P. cbv zeta. destruct (tree_push _ _ _); discriminate. }
  assert (IO : forall d sp b0, b_tree b0 = b_tree b -> out_node (snd (open_with F d sp b0)) <> RErr Overflow).
  { intros d sp b0 Eb H. specialize (I d sp b0 Eb). unfold open_with in H. destruct (insert F d sp b0) as [? []]; cbn [snd out_node] in *; congruence. }
  assert (IT : forall d len, out_node (snd (token F d len b)) <> RErr Overflow).
  { intros d len H. rewrite token_cases in H. unfold len_is_empty in H. rewrite HE in H. unfold token_rest in H.
    specialize (I d (Span (b_cursor b) (b_cursor b)) b eq_refl).
    destruct (insert F d _ b) as [b1 [id|e|]]; cbn [snd out_node] in *; try congruence.
    cbv zeta in H. unfold len_is_empty in H. rewrite HE in H. discriminate. }
  assert (IC : forall a d osp, out_node (snd (close_at_gen F a d osp h b)) <> RErr Overflow).
  { intros a d osp H. unfold close_at_gen in H. destruct (nth_error h a) as [c|]; [|discriminate]. destruct (negb _); [discriminate|].
    rewrite P in H. destruct (nth_error _ (c_node c)) as [l|].
    - cbv zeta in H. set (t0 := tree_upd (c_node c) _ (b_tree b)) in H.
      assert (Rs : forall fuel p x ns e, snd (restructure (T:=T) fuel p x ns) = Err e -> e <> Overflow).
      { induction fuel as [|fuel IH]; intros p x ns e X; simpl in X; [discriminate|]. destruct (nth_error ns x); [|injection X as <-; discriminate].
        destruct (l_next l0); [eapply IH; eauto|discriminate]. }
      destruct (match l_next l with Some _ => _ | None => _ end) as [m r] eqn:Em.
      assert (Hr' : r <> Err Overflow).
      { destruct (l_next l); [|congruence]. intros ->. apply (Rs (S (tree_len t0)) (tree_len (b_tree b)) n (t_nodes t0) Overflow); auto. rewrite Em. auto. }
      destruct r as [[last e]|e|]; cbn [snd out_node] in H; [|congruence..].
      destruct (tree_push _ _ _); discriminate.
    - set (sp := match osp with Some sp => sp | None => span_point (b_cursor b) end) in H.
      specialize (I d sp b eq_refl). destruct (insert F d sp b) as [b1 [id|e|]]; [|cbn [snd out_node] in *; congruence..].
      destruct (Nat.eqb _ _); discriminate. }
  destruct o; cbn [step w_heap w_builder w_env] in E.
  - specialize (IO d (span_point (b_cursor b)) b eq_refl). unfold open_with in IO. unfold open in E.
    destruct (insert F d _ b) as [? []]; cbn [snd] in *; congruence.
  - specialize (IO d sp b eq_refl). destruct (open_with F d sp b). cbn [snd] in *. congruence.
  - unfold close in E. destruct (b_parent b); [|discriminate]. cbv zeta in E. cbn [b_tree set_b_parent set_b_sibling] in E.
    destruct (nth_error _ n); [|discriminate]. destruct (l_parent l); [|discriminate]. destruct (nth_error _ n0); discriminate.
  - specialize (IT d len). destruct (token F d len b). cbn [snd] in *. congruence.
  - specialize (IT d len_EMPTY). unfold token_empty in E. destruct (token F d len_EMPTY b). cbn [snd] in *. congruence.
  - unfold token_with in E. specialize (I d sp b eq_refl). destruct (insert F d sp b) as [b1 [id|e|]]; [|cbn [snd out_node] in *; congruence..].
    cbv zeta in E. destruct (tree_push_index _ _ _ _); discriminate.
  - unfold checkpoint in E. rewrite P in E. destruct (b_checkpoint b); [|discriminate]. destruct (nth_error h n); [|discriminate].
    destruct (_ && _); discriminate.
  - destruct (nth_error env k) as [a|]; [|discriminate]. specialize (IC a d None). unfold close_at in E.
    destruct (close_at_gen F a d None h b) as [[? ?] ?]. cbn [snd] in *. congruence.
  - destruct (nth_error env k) as [a|]; [|discriminate]. specialize (IC a d (Some sp)). unfold close_at_with in E.
    destruct (close_at_gen F a d (Some sp) h b) as [[? ?] ?]. cbn [snd] in *. congruence.
  - discriminate.
Qed.
Print Assumptions C37_no_index_overflow.

(** ** The same structure *)

(** Two histories of the same calls, on builders of any two flavors, positions aside: if neither
    reports an overflow, every call has the same result and the trees have the same structure.
    All histories, also those that misuse checkpoints. *)
Theorem C37_structure : forall T F G (ops qs : list (op T)), vec_flavor F -> vec_flavor G ->
  Forall2 same_but_positions ops qs ->
  ~ In (RErr Overflow) (run_outs F ops) -> ~ In (RErr Overflow) (run_outs G qs) ->
  run_outs F ops = run_outs G qs /\ same_structure (tree_so_far F ops) (tree_so_far G qs).
Proof.
  intros T F G ops qs HF HG H N1 N2.
  destruct (run_same F G HF HG ops qs H _ _ wsame_new N1 N2) as [(_ & (A & _) & _) B].
  split; [exact B|]. apply same_structure_of. exact A.
Qed.
Print Assumptions C37_structure.

Lemma full_refuses T F E (w v : world T) o q : wsame w v -> same_but_positions o q -> ~ room F (b_tree (w_builder w)) ->
  snd (step E v q) = RErr Overflow -> snd (step F w o) = RErr Overflow.
Proof.
  intros (Hh & Hb & He) Hs Hr X.
  assert (P : pointer_new F (tree_len (b_tree (w_builder w))) = None).
  { unfold room in Hr. rewrite pointer_new_full. destruct (N.leb_spec (int_max F (fl_width F)) (N.of_nat (tree_len (b_tree (w_builder w))))); auto; lia. }
  assert (I : forall d sp b0, b_tree b0 = b_tree (w_builder w) -> insert F d sp b0 = (b0, Err Overflow)).
  { intros d sp b0 Eb. unfold insert. rewrite Eb, P. auto. }
  assert (IR : forall (d : T) sp len (b0 : builder T), tree_len (b_tree b0) = tree_len (b_tree (w_builder w)) -> token_rest F d sp len b0 = (b0, Err Overflow)).
  { intros d sp len b0 Eb. unfold token_rest, insert. rewrite Eb, P. auto. }
  assert (IT : forall d len, snd (token F d len (w_builder w)) = Err Overflow).
  { intros d len. rewrite token_cases. destruct (len_is_empty F len); [rewrite IR; auto|].
    destruct (ix_checked_add_len _ _ _); [rewrite IR; auto|auto]. }
  pose proof Hb as (Ht & Hc & Hp & Hsib).
  assert (C : forall a d osp osp', out_node (snd (close_at_gen E a d osp' (w_heap v) (w_builder v))) = RErr Overflow ->
    snd (close_at_gen F a d osp (w_heap w) (w_builder w)) = Err Overflow).
  { intros a d osp osp' Y. unfold close_at_gen in *. rewrite Hh, P, Hp. destruct (nth_error (w_heap v) a); [|discriminate].
    destruct (negb _); [discriminate|auto]. }
  destruct Hs; simpl in *.
  - unfold open. rewrite I; auto.
  - unfold open_with. rewrite I; auto.
  - revert X. unfold close. destruct (b_parent (w_builder v)); [|discriminate]. cbv zeta. cbn [b_tree set_b_parent set_b_sibling].
    destruct (nth_error _ n); [|discriminate]. destruct (l_parent l); [|discriminate]. destruct (nth_error _ n0); discriminate.
  - specialize (IT d len). destruct (token F d len (w_builder w)). cbn [snd] in *. subst. auto.
  - specialize (IT d len_EMPTY). unfold token_empty. destruct (token F d len_EMPTY (w_builder w)). cbn [snd] in *. subst. auto.
  - unfold token_with. rewrite I; auto.
  - unfold checkpoint. rewrite P. auto.
  - rewrite <- He in X. destruct (nth_error (w_env w) k) as [a|]; [|discriminate]. unfold close_at in *.
    destruct (close_at_gen E a d None (w_heap v) (w_builder v)) as [[h1 b1] r1] eqn:Eq. specialize (C a d None None). rewrite Eq in C.
    destruct (close_at_gen F a d None (w_heap w) (w_builder w)) as [[h2 b2] r2]. cbn [snd] in *. rewrite (C X). auto.
  - rewrite <- He in X. destruct (nth_error (w_env w) k) as [a|]; [|discriminate]. unfold close_at_with in *.
    destruct (close_at_gen E a d (Some sp') (w_heap v) (w_builder v)) as [[h1 b1] r1] eqn:Eq. specialize (C a d (Some sp) (Some sp')). rewrite Eq in C.
    destruct (close_at_gen F a d (Some sp) (w_heap w) (w_builder w)) as [[h2 b2] r2]. cbn [snd] in *. rewrite (C X). auto.
  - discriminate.
Qed.

(** If the pointer widths agree, the Empty run needs no hypothesis of its own: it goes at least as far. *)
Theorem C37_structure_empty : forall T F E (ops qs : list (op T)), vec_flavor F -> vec_flavor E ->
  fl_index E = IxEmpty -> int_max E (fl_width E) = int_max F (fl_width F) ->
  Forall2 same_but_positions ops qs -> ~ In (RErr Overflow) (run_outs F ops) ->
  ~ In (RErr Overflow) (run_outs E qs) /\
  run_outs F ops = run_outs E qs /\ same_structure (tree_so_far F ops) (tree_so_far E qs).
Proof.
  intros T F E ops qs HF HE Hix Hw H N1.
  assert (G : ~ In (RErr Overflow) (run_outs E qs)).
  { assert (K : forall w v : world T, wsame w v -> ~ In (RErr Overflow) (snd (run F w ops)) -> ~ In (RErr Overflow) (snd (run E v qs))).
    2:{ exact (K _ _ wsame_new N1). }
    clear N1. induction H as [|o q ops qs Ho Hs IH]; intros w v Hwv N; simpl in *; auto.
    assert (R : snd (step E v q) = RErr Overflow -> snd (step F w o) = RErr Overflow).
    { intros X. apply (full_refuses T F E w v o q); auto. apply C37_no_index_overflow in X; auto.
      unfold room in *. destruct Hwv as (_ & (Ht & _) & _). rewrite (tsame_len _ _ Ht), <- Hw. exact X. }
    pose proof (step_same F E HF HE w v o q Hwv Ho) as A.
    destruct (step F w o) as [w1 r1], (step E v q) as [v1 r2]. cbn [fst snd] in *.
    specialize (IH w1 v1). destruct (run F w1 ops) as [w2 rs1], (run E v1 qs) as [v2 rs2]. cbn [fst snd In] in *.
    destruct A as [->|[A|[A ->]]]; [tauto|rewrite (R A) in N; tauto|]. tauto. }
  split; [exact G|]. apply C37_structure; auto.
Qed.
Print Assumptions C37_structure_empty.

(** The same in terms of documents: the document of one is the document of the other without spans. *)
Definition unframe {T} (f : frame T) : nat * T * list (outline T) := (f_id f, f_data f, map unspan (f_left f)).
Definition asame {T} (a b : doc T) : Prop :=
  map unspan (a_cur a) = map unspan (a_cur b) /\ map unframe (a_open a) = map unframe (a_open b) /\
  a_n a = a_n b /\ a_marks a = a_marks b.

Section Docs.
Context {T : Type}.
Variables F G : flavor.
Implicit Types (a b : doc T).

Lemma unframe_touch e (fs : list (frame T)) : map unframe (touch e fs) = map unframe fs.
Proof. destruct fs; auto. Qed.
Lemma unframe_widen e (fs : list (frame T)) : map unframe (widen e fs) = map unframe fs.
Proof. destruct fs; auto. Qed.
Lemma unframe_level (fs gs : list (frame T)) : map unframe fs = map unframe gs -> level fs = level gs.
Proof. destruct fs, gs; simpl; try discriminate; auto. intros E. injection E as E _ _ _. simpl. congruence. Qed.

Definition follow (x y : option (doc T * out)) : Prop :=
  match x, y with
  | None, None => True
  | Some (a, r), Some (b, s) => r = RErr Overflow \/ s = RErr Overflow \/ asame a b /\ r = s
  | Some (_, r), None | None, Some (_, r) => r = RErr Overflow
  end.

Lemma leaf_same a b d sp sp' : asame a b -> asame (a_leaf d sp a) (a_leaf d sp' b).
Proof.
  intros (A & B & C & D). unfold asame, a_leaf; simpl. rewrite !map_app, !unframe_touch, A, B, C. simpl. auto.
Qed.

Lemma close_at_follow a b k d osp osp' : asame a b -> follow (a_close_at F k d osp a) (a_close_at G k d osp' b).
Proof.
  intros H. pose proof H as (A & B & C & D). unfold a_close_at. rewrite <- D, <- (unframe_level _ _ B).
  destruct (nth_error (a_marks a) k) as [m|]; [|simpl; auto]. destruct (negb _); [simpl; auto|].
  destruct (full F a), (full G b); try (simpl; auto; fail).
  - destruct m as [lv pos|]; simpl; auto. destruct (skipn pos (a_cur b)); simpl; auto.
  - destruct m as [lv pos|]; simpl; auto. destruct (skipn pos (a_cur a)); simpl; auto.
  - destruct m as [lv pos|]; [|simpl; auto].
    assert (S : map unspan (skipn pos (a_cur a)) = map unspan (skipn pos (a_cur b))) by (rewrite <- !skipn_map, A; auto).
    destruct (skipn pos (a_cur a)) as [|x w], (skipn pos (a_cur b)) as [|y w']; try discriminate.
    + simpl. right; right. split; [apply leaf_same; auto|congruence].
    + simpl. right; right. split; [|congruence]. unfold asame; simpl. rewrite !map_app, <- !firstn_map, A, C. simpl.
      simpl in S. injection S as S1 S2. rewrite S1, S2. auto.
Qed.

Lemma step_follow a b o p : asame a b -> same_but_positions o p -> follow (a_step F a o) (a_step G b p).
Proof.
  intros H Hs. pose proof H as (A & B & C & D).
  assert (OW : forall d sp sp', follow (Some (a_open_with F d sp a)) (Some (a_open_with G d sp' b))).
  { intros d sp sp'. unfold a_open_with. destruct (full F a), (full G b); simpl; auto.
    right; right. split; [|congruence]. unfold asame; simpl. rewrite !unframe_touch, B, C. unfold unframe at 1 3. simpl. rewrite A. auto. }
  assert (TK : forall d len len', follow (Some (a_token F d len a)) (Some (a_token G d len' b))).
  { intros d len len'. unfold a_token. destruct (full F a), (full G b), (len_is_empty F len), (len_is_empty G len');
      try destruct (ix_checked_add_len F _ _); try destruct (ix_checked_add_len G _ _); simpl; auto;
      right; right; (split; [|congruence]); unfold asame; simpl; rewrite !map_app, !unframe_touch, A, B, C; simpl; auto. }
  destruct Hs; cbn [a_step]; auto using close_at_follow.
  - unfold a_close. destruct (a_open a) as [|f fs], (a_open b) as [|g gs]; try discriminate; [simpl; auto|].
    simpl in B. injection B as B1 B2 B3 B4. simpl. right; right. split; auto. unfold asame; simpl.
    rewrite !map_app, !unframe_widen, B3, B4. simpl. rewrite A, B1, B2. auto.
  - unfold a_token_with. destruct (full F a), (full G b); simpl; auto.
    right; right. split; [|congruence]. unfold asame; simpl. rewrite !map_app, !unframe_widen, !unframe_touch, A, B, C. simpl; auto.
  - unfold a_checkpoint. destruct (full F a), (full G b); simpl; auto.
    right; right. split; auto. unfold asame; simpl. rewrite (unframe_level _ _ B), D.
    assert (L : length (a_cur a) = length (a_cur b)) by (rewrite <- (map_length unspan), A, map_length; auto). rewrite L. auto.
  - simpl. right; right. auto.
Qed.

Lemma run_follow ops qs : Forall2 same_but_positions ops qs -> forall a b a' b' rs ss, asame a b ->
  a_run F a ops = Some (a', rs) -> a_run G b qs = Some (b', ss) -> ~ In (RErr Overflow) rs -> ~ In (RErr Overflow) ss ->
  asame a' b' /\ rs = ss.
Proof.
  induction 1 as [|o q ops qs Ho Hs IH]; intros a b a' b' rs ss H E1 E2 N1 N2; simpl in *.
  - injection E1 as <- <-. injection E2 as <- <-. auto.
  - pose proof (step_follow a b o q H Ho) as X.
    destruct (a_step F a o) as [[a1 r]|]; [|discriminate]. destruct (a_step G b q) as [[b1 s]|]; [|discriminate].
    destruct (a_run F a1 ops) as [[a2 rs2]|] eqn:R1; [|discriminate]. destruct (a_run G b1 qs) as [[b2 ss2]|] eqn:R2; [|discriminate].
    injection E1 as <- <-. injection E2 as <- <-. simpl in *. destruct X as [->|[->|[X ->]]]; [tauto|tauto|].
    destruct (IH a1 b1 a2 b2 rs2 ss2 X R1 R2) as [Y ->]; [tauto|tauto|]. auto.
Qed.
End Docs.

Theorem C37_outline : forall T F G (ops qs : list (op T)) t u l m,
  Forall2 same_but_positions ops qs -> finished F ops t l -> finished G qs u m ->
  ~ In (RErr Overflow) (run_outs F ops) -> ~ In (RErr Overflow) (run_outs G qs) ->
  map unspan l = map unspan m.
Proof.
  intros T F G ops qs t u l m H (HF & (a & rs & D1 & _ & <-) & _) (HG & (b & ss & D2 & _ & <-) & _) N1 N2.
  destruct (refines F HF ops a rs D1) as (w1 & E1 & _). destruct (refines G HG qs b ss D2) as (w2 & E2 & _).
  unfold run_outs in N1, N2. rewrite E1 in N1. rewrite E2 in N2.
  destruct (run_follow F G ops qs H doc_new doc_new a b rs ss) as [(X & _) _]; auto.
  repeat split.
Qed.
Print Assumptions C37_outline.

(** ** Range queries *)

Section Indexes.
Context {T : Type}.
Variable F : flavor.
(** The index entries only name the position [ix_EMPTY], or there are none. *)
Variable P : list (N * nat) -> Prop.
Hypothesis P_push : forall l ix id l', P l -> (ix <= ix_max F)%N -> storage_push (fl_indexes F) l (ix, id) = Some l' -> P l'.
Implicit Types (b : builder T).

Lemma ix_insert b d sp : t_indexes (b_tree (fst (insert F d sp b))) = t_indexes (b_tree b).
Proof.
  unfold insert. destruct (pointer_new _ _); [|auto]. cbv zeta. unfold tree_push. destruct (storage_push _ _ _); [|auto].
  cbn [option_map fst b_tree set_b_tree set_b_sibling b_parent]. destruct (b_parent b), (b_sibling b); simpl; auto; destruct (t_first (b_tree b)); auto.
Qed.
Lemma ix_push t ix id t' : P (t_indexes t) -> (ix <= ix_max F)%N -> tree_push_index (T:=T) F ix id t = Some t' -> P (t_indexes t').
Proof.
  intros H Hi. unfold tree_push_index. destruct (storage_push _ _ _) eqn:E; [|discriminate]. simpl. intros X. injection X as <-. simpl. eapply P_push; eauto.
Qed.
Lemma ix_step (w : world T) o : builder_wf F (w_builder w) -> op_wf F o -> P (t_indexes (b_tree (w_builder w))) ->
  P (t_indexes (b_tree (w_builder (fst (step F w o))))).
Proof.
  destruct w as [h b env]. cbn [w_builder]. intros Hwf Ho H.
  assert (TK : forall d len, P (t_indexes (b_tree (fst (token F d len b))))).
  { intros d len. rewrite token_cases.
    assert (R : forall sp b0, P (t_indexes (b_tree b0)) -> (b_cursor b0 <= ix_max F)%N -> P (t_indexes (b_tree (fst (token_rest F d sp len b0))))).
    { intros sp b0 H0 Hc. unfold token_rest. pose proof (ix_insert b0 d sp) as E.
      assert (Ec : b_cursor (fst (insert F d sp b0)) = b_cursor b0).
      { unfold insert. destruct (pointer_new _ _); [|auto]. cbv zeta. destruct (tree_push _ _ _); auto. }
      destruct (insert F d sp b0) as [b1 [id|e|]]; cbn [fst] in *; try congruence.
      cbv zeta. cbn [b_tree set_b_sibling b_cursor]. destruct (len_is_empty F len); [simpl; congruence|].
      destruct (tree_push_index F (b_cursor b1) id (b_tree b1)) eqn:Ep; simpl; [|congruence].
      eapply ix_push; [| |exact Ep]; congruence. }
    destruct (len_is_empty F len); [apply R; auto; apply Hwf|]. destruct (ix_checked_add_len F (b_cursor b) len) eqn:Ea; [|exact H].
    apply R; [exact H|]. simpl. eapply add_range; eauto. }
  assert (CA : forall a d osp, P (t_indexes (b_tree (snd (fst (close_at_gen F a d osp h b)))))).
  { intros a d osp. unfold close_at_gen. destruct (nth_error h a) as [c|]; [|exact H]. destruct (negb _); [exact H|].
    destruct (pointer_new _ _); [|exact H]. destruct (nth_error _ (c_node c)) as [l|].
    - cbv zeta. destruct (match l_next l with Some _ => _ | None => _ end) as [m [[last e]|e|]]; [|exact H..].
      unfold tree_push. destruct (storage_push _ _ _); cbn [option_map fst snd b_tree set_b_tree set_b_sibling];
        match goal with |- P (t_indexes ?x) => enough (t_indexes x = t_indexes (b_tree b)) by congruence end;
        destruct (l_parent l), (l_prev l); simpl; destruct (opt_nat_eqb _ _); reflexivity.
    - set (sp := match osp with Some sp => sp | None => span_point (b_cursor b) end).
      pose proof (ix_insert b d sp) as E. destruct (insert F d sp b) as [b1 [id|e|]]; cbn [fst] in E; [|simpl; congruence..].
      destruct (Nat.eqb _ _); simpl; congruence. }
  destruct o; cbn [step w_heap w_builder w_env].
  - unfold open. pose proof (ix_insert b d (span_point (b_cursor b))) as E. destruct (insert F d _ b) as [b1 [id|e|]]; cbn [fst] in E; simpl; congruence.
  - unfold open_with. pose proof (ix_insert b d sp) as E. destruct (insert F d _ b) as [b1 [id|e|]]; cbn [fst] in E; simpl; congruence.
  - unfold close. destruct (b_parent b); [|exact H]. cbv zeta. cbn [b_tree set_b_parent set_b_sibling].
    destruct (nth_error _ n) as [l|]; [|exact H]. destruct (l_parent l); [|exact H]. destruct (nth_error _ n0); exact H.
  - specialize (TK d len). destruct (token F d len b). exact TK.
  - specialize (TK d len_EMPTY). unfold token_empty. destruct (token F d len_EMPTY b). exact TK.
  - unfold token_with. pose proof (ix_insert b d sp) as E. destruct (insert F d sp b) as [b1 [id|e|]]; cbn [fst] in E; [|simpl; congruence..].
    cbv zeta. cbn [b_tree set_b_sibling b_parent]. destruct (tree_push_index _ _ _ _) as [t|] eqn:Ep; [|simpl; congruence].
    assert (X : P (t_indexes t)) by (eapply ix_push; [|apply (proj1 Ho)|exact Ep]; congruence).
    destruct (b_parent b1); exact X.
  - unfold checkpoint. destruct (pointer_new _ _); [|exact H]. destruct (b_checkpoint b); [|exact H].
    destruct (nth_error h _); [|exact H]. destruct (_ && _); exact H.
  - destruct (nth_error env k) as [a|]; [|exact H]. specialize (CA a d None). unfold close_at. destruct (close_at_gen F a d None h b) as [[? ?] ?]. exact CA.
  - destruct (nth_error env k) as [a|]; [|exact H]. specialize (CA a d (Some sp)). unfold close_at_with. destruct (close_at_gen F a d (Some sp) h b) as [[? ?] ?]. exact CA.
  - exact H.
Qed.

Lemma ix_run (ops : list (op T)) : Forall (op_wf F) ops -> P [] -> P (t_indexes (tree_so_far F ops)).
Proof.
  intros Hops H0. unfold tree_so_far, run_world.
  assert (W0 : builder_wf F (w_builder (@world_new T))).
  { split; [|split]; simpl; [constructor|split; apply N.le_0_l|apply N.le_0_l]. }
  assert (P0 : P (t_indexes (b_tree (w_builder (@world_new T))))) by exact H0.
  revert W0 P0. generalize (@world_new T). induction Hops as [|o ops Ho Hops IH]; intros w HW H; simpl; auto.
  pose proof (ix_step w o HW Ho H) as H1. pose proof (wf_step F w o HW Ho) as W1.
  destruct (step F w o) as [w1 r1]. cbn [fst] in *. specialize (IH w1 W1 H1). destruct (run F w1 ops). exact IH.
Qed.
End Indexes.

(** With [Indexes = EmptyVec], as the documentation declares the flavor, no query finds anything:
    any history, any index type, any search that keeps the promise of the standard library, any range. *)
Theorem C37_no_ranges : forall T F (ops : list (op T)) bs, fl_indexes F = SEmptyVec -> documented_search bs ->
  Forall (op_wf F) ops ->
  (forall s e, node_with_range F bs (tree_so_far F ops) s e = Ok None) /\
  forall sp, node_with_span bs (tree_so_far F ops) sp = Ok None.
Proof.
  intros T F ops bs HI Hbs Hops.
  assert (X : t_indexes (tree_so_far F ops) = []).
  { apply (ix_run F (fun l => l = [])); auto. intros l ix id l' -> _. rewrite HI. simpl. congruence. }
  assert (Y : forall a b, node_with_span_internal bs (tree_so_far F ops) a b = Ok None).
  { intros a b. unfold node_with_span_internal. rewrite X. specialize (Hbs [] a I). destruct (bs [] a) as [n|n]; [|destruct n; auto].
    destruct Hbs as [id H]. destruct n; discriminate. }
  split; [|intros; apply Y]. intros s e. unfold node_with_range. destruct (ix_from_usize F s), (ix_from_usize F e); auto.
Qed.
Print Assumptions C37_no_ranges.

(** The Empty index with any other index storage: with the binary search of the standard library no
    query finds anything either, although [token_with] fills the index. *)
Lemma loop_all_zero l : (forall p, In p l -> fst p = 0%N) -> forall fuel base size,
  (size <= fuel)%nat -> (0 < size)%nat -> (base + size = length l)%nat ->
  S (std_search_loop fuel l 0%N base size) = length l.
Proof.
  intros H. assert (Z : forall i, fst (nth i l (0%N, 0)) = 0%N).
  { intros i. destruct (nth_in_or_default i l (0%N, 0)) as [Hi| ->]; auto. }
  induction fuel as [|fuel IH]; intros base size H1 H2 H3; [lia|]. cbn [std_search_loop].
  destruct (Nat.leb_spec size 1); [lia|]. cbv zeta. rewrite Z. replace (0 <? 0)%N with false by reflexivity.
  pose proof (Nat.div_lt size 2 H2 ltac:(lia)). pose proof (Nat.div_le_lower_bound size 2 1 ltac:(lia) ltac:(lia)).
  apply IH; lia.
Qed.

Theorem C37_no_ranges_std : forall T F (ops : list (op T)), fl_index F = IxEmpty ->
  Forall (op_wf F) ops -> forall s e, node_with_range F std_search (tree_so_far F ops) s e = Ok None.
Proof.
  intros T F ops HE Hops s e.
  assert (M : ix_max F = 0%N) by (unfold ix_max; rewrite HE; auto).
  assert (X : forall p, In p (t_indexes (tree_so_far F ops)) -> fst p = 0%N).
  { apply (ix_run F (fun l => forall p, In p l -> fst p = 0%N)); [|auto|simpl; tauto].
    intros l ix id l' H Hi Ep p Hp. assert (Hp' : In p (l ++ [(ix, id)])).
    { unfold storage_push in Ep. destruct (fl_indexes F) as [| |c]; [..|destruct (Nat.ltb _ _); [|discriminate]]; injection Ep as <-; auto.
      apply in_app_iff; auto. }
    apply in_app_iff in Hp' as [Hp'|[<-|[]]]; [auto|simpl; lia]. }
  unfold node_with_range, ix_from_usize. rewrite HE. unfold node_with_span_internal. set (l := t_indexes (tree_so_far F ops)) in *.
  assert (N : nth_error l (match std_search l 0%N with inl n => S n | inr n => n end) = None).
  { unfold std_search. destruct l as [|p l']; [auto|]. cbv zeta. set (l := p :: l') in *.
    pose proof (loop_all_zero l X (length l) 0 (length l) (le_n _) ltac:(simpl; lia) eq_refl) as L.
    set (base := std_search_loop (length l) l 0%N 0 (length l)) in *.
    assert (Z : fst (nth base l (0%N, 0)) = 0%N) by (apply X, nth_In; lia).
    rewrite Z. cbn [N.eqb]. apply nth_error_None. lia. }
  rewrite N. auto.
Qed.
Print Assumptions C37_no_ranges_std.

(** But that is an accident of the algorithm: a search that returns the first of the matches also
    keeps the promise, and with it the query finds a node. *)
Fixpoint first_search (l : list (N * nat)) (x : N) : nat + nat :=
  match l with
  | [] => inr 0
  | (k, _) :: l =>
    if (k <? x)%N then match first_search l x with inl n => inl (S n) | inr n => inr (S n) end
    else if (k =? x)%N then inl 0 else inr 0
  end.
Lemma sorted_later k i l : sorted_keys ((k, i) :: l) -> forall p, In p l -> (k <= fst p)%N.
Proof.
  revert k i. induction l as [|[k2 i2] l IH]; intros k i H p Hp; [destruct Hp|].
  destruct H as [H1 H2]. cbn [fst] in H1. destruct Hp as [<-|Hp]; [auto|]. specialize (IH k2 i2 H2 p Hp). lia.
Qed.
Lemma first_search_documented : documented_search first_search.
Proof.
  intros l x. induction l as [|[k id] l IH]; intros H; cbn [first_search].
  { split; [auto|]. intros i k id E. destruct i; discriminate. }
  assert (Hl : sorted_keys l) by (destruct l; [exact I|apply H]).
  specialize (IH Hl). destruct (N.ltb_spec k x) as [Hk|Hk].
  - destruct (first_search l x) as [n|n].
    + exact IH.
    + destruct IH as [A B]. split; [simpl; lia|]. intros [|i] k' id' E; cbn [nth_error] in E.
      * injection E as <- <-. split; [auto|lia].
      * destruct (B i k' id' E) as [B1 B2]. split; intros; [apply B1|apply B2]; lia.
  - destruct (N.eqb_spec k x) as [->|Hn]; [exists id; auto|]. split; [lia|]. intros i k' id' E.
    split; [lia|]. intros _. destruct i as [|i]; cbn [nth_error] in E; [injection E as <- _; lia|].
    apply nth_error_In in E. pose proof (sorted_later _ _ _ H _ E). cbn [fst] in *. lia.
Qed.

Definition flavor_empty : flavor := Flavor usize_max_64 IxEmpty Usize SVec SEmptyVec.
Definition flavor_empty_vec : flavor := Flavor usize_max_64 IxEmpty Usize SVec SVec.

Theorem C37_ranges_refuted : exists F (ops : list (op nat)) bs,
  vec_flavor F /\ target_ok F /\ fl_index F = IxEmpty /\ Forall (op_wf F) ops /\ documented_search bs /\
  node_with_range F bs (tree_so_far F ops) 0 0 <> Ok None.
Proof.
  exists flavor_empty_vec, [OTokenWith 1 (Span 0 0); OTokenWith 2 (Span 0 0)], first_search.
  split; [vm_compute; auto|]. split; [right; reflexivity|]. split; [reflexivity|]. split; [repeat constructor; discriminate|].
  split; [apply first_search_documented|]. vm_compute. discriminate.
Qed.
Print Assumptions C37_ranges_refuted.

(** The hypotheses are met: the demonstration history in the Empty flavor of the documentation. *)
Definition no_positions {T} (o : op T) : op T :=
  match o with
  | OOpenWith d _ => OOpenWith d (Span 0 0)
  | OToken d _ => OToken d 0%N
  | OTokenWith d _ => OTokenWith d (Span 0 0)
  | OCloseAtWith k d _ => OCloseAtWith k d (Span 0 0)
  | OSetCursor _ => OSetCursor 0%N
  | o => o
  end.
Lemma no_positions_same {T} (ops : list (op T)) : Forall2 same_but_positions ops (map no_positions ops).
Proof. induction ops as [|o ops IH]; constructor; auto. destruct o; constructor. Qed.
Lemma no_positions_wf {T} F (ops : list (op T)) : Forall (op_wf F) (map no_positions ops).
Proof. induction ops as [|o ops IH]; constructor; auto. destruct o; simpl; auto using N.le_0_l; split; apply N.le_0_l. Qed.

Example C37_inhabited : vec_flavor flavor_default /\ vec_flavor flavor_empty /\
  int_max flavor_empty (fl_width flavor_empty) = int_max flavor_default (fl_width flavor_default) /\
  Forall2 same_but_positions demo_ops (map no_positions demo_ops) /\
  ~ In (RErr Overflow) (run_outs flavor_default demo_ops) /\
  (3 < tree_len (tree_so_far flavor_empty (map no_positions demo_ops)))%nat.
Proof.
  split; [vm_compute; auto|]. split; [vm_compute; auto|]. split; [reflexivity|]. split; [apply no_positions_same|].
  split; [|vm_compute; repeat constructor]. vm_compute. intuition discriminate.
Qed.
