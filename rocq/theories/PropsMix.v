(** C53: several builders, checkpoints passed between them. *)
From Coq Require Import Lia.
From Verif Require Import Base Pointer Index Tree Builder Hist Mix SpecMix Node Iter Query Spec Rep Refine Bounds
  AllHist AllWalk StepFacts Sim PropsSafe AllMix.

Lemma mix_run_app T F (m : mix T) ops1 ops2 : mix_run F m (ops1 ++ ops2) =
  let '(m1, r1) := mix_run F m ops1 in let '(m2, r2) := mix_run F m1 ops2 in (m2, r1 ++ r2).
Proof.
  revert m; induction ops1 as [|o ops1 IH]; intros m; simpl.
  - destruct (mix_run F m ops2); auto.
  - destruct (mix_step F m o) as [m1 r1]. rewrite IH. destruct (mix_run F m1 ops1) as [m2 r2].
    destruct (mix_run F m2 ops2) as [m3 r3]. auto.
Qed.

Lemma mix_snoc T F (ops : list (mix_op T)) o :
  fst (mix_run F mix_new (ops ++ [o])) = fst (mix_step F (fst (mix_run F mix_new ops)) o).
Proof.
  rewrite mix_run_app. destruct (mix_run F mix_new ops) as [m rs]. simpl. destruct (mix_step F m o). auto.
Qed.

Lemma mix_reached T F (ops : list (mix_op T)) : vec_flavor F -> mix_inv F (fst (mix_run F mix_new ops)).
Proof. intros HF. apply mix_run_inv; auto. apply mix_inv_new. Qed.

Lemma has_sound T F (ops : list (mix_op T)) i b : vec_flavor F -> has_builder F ops i b -> sound b /\ small F b.
Proof. intros HF H. apply (mi_builders _ _ (mix_reached T F ops HF)). eapply nth_error_In; eauto. Qed.

Lemma sound_wok T (b : builder T) : sound b -> wok (World (universe (tree_len (b_tree b))) b []).
Proof. intros H. split; [exact H|intros a []]. Qed.

(** BuildError is for [build] alone. *)
Lemma no_build_error T F (w : world T) o : vec_flavor F -> snd (step F w o) <> RErr BuildError.
Proof.
  intros HF. destruct w as [h b env].
  assert (HC : forall a d osp, out_node (snd (close_at_gen F a d osp h b)) <> RErr BuildError).
  { intros a d osp. unfold close_at_gen. destruct (nth_error h a) as [c|]; [|discriminate]. destruct (negb _); [discriminate|].
    destruct (pointer_new _ _); [|discriminate]. destruct (nth_error _ (c_node c)) as [l|].
    - cbv zeta. assert (R : forall fuel p x (ns : list (links T)), snd (restructure fuel p x ns) <> Err BuildError).
      { clear. induction fuel as [|fuel IH]; simpl; [discriminate|]. intros p x ns. destruct (nth_error ns x) as [l|]; [|discriminate].
        destruct (l_next l); [apply IH|discriminate]. }
      destruct (match l_next l with Some _ => _ | None => _ end) as [m rr] eqn:Em.
      assert (Hr : rr <> Err BuildError).
      { destruct (l_next l); [|injection Em as _ <-; discriminate].
        match type of Em with restructure ?a ?b ?c ?d = _ => specialize (R a b c d) end. rewrite Em in R. exact R. }
      destruct rr as [[x y]|e|]; [|simpl; congruence|discriminate]. destruct (tree_push _ _ _); discriminate.
    - match goal with |- context [insert F d ?s ?x] => destruct (insert_vec F HF x d s) as [[_ ->]|(_ & b' & -> & _)] end; [discriminate|].
      destruct (Nat.eqb _ _); discriminate. }
  assert (HT : forall d len, out_node (snd (token F d len b)) <> RErr BuildError).
  { intros d len. unfold token. destruct (len_is_empty F len).
    + destruct (insert_vec F HF b d (Span (b_cursor b) (b_cursor b))) as [[_ ->]|(_ & b' & -> & _)]; discriminate.
    + destruct (ix_checked_add_len _ _ _) as [c|]; [|discriminate]. cbv zeta.
      match goal with |- context [insert F d ?s ?x] =>
        destruct (insert_vec F HF x d s) as [[_ ->]|(_ & b' & -> & _)]; try discriminate end.
      destruct (tree_push_index _ _ _ _); discriminate. }
  destruct o; simpl.
  - unfold open. destruct (insert_vec F HF b d (span_point (b_cursor b))) as [[_ ->]|(_ & b' & -> & _)]; discriminate.
  - unfold open_with. destruct (insert_vec F HF b d sp) as [[_ ->]|(_ & b' & -> & _)]; discriminate.
  - unfold close. destruct (b_parent b); [|discriminate]. cbv zeta. destruct (nth_error _ _); [|discriminate].
    destruct (l_parent _); [|discriminate]. destruct (nth_error _ _); discriminate.
  - specialize (HT d len). destruct (token F d len b). exact HT.
  - specialize (HT d len_EMPTY). unfold token_empty. destruct (token F d len_EMPTY b). exact HT.
  - unfold token_with. destruct (insert_vec F HF b d sp) as [[_ ->]|(_ & b' & -> & _)]; try discriminate.
    cbv zeta. destruct (tree_push_index _ _ _ _); discriminate.
  - unfold checkpoint. destruct (pointer_new _ _); [|discriminate]. destruct (b_checkpoint b); [|discriminate].
    destruct (nth_error h _); [|discriminate]. destruct (_ && _); discriminate.
  - destruct (nth_error env k) as [a|]; [|discriminate]. specialize (HC a d None). unfold close_at.
    destruct (close_at_gen F a d None h b) as [[h' b'] r]. exact HC.
  - destruct (nth_error env k) as [a|]; [|discriminate]. specialize (HC a d (Some sp)). unfold close_at_with.
    destruct (close_at_gen F a d (Some sp) h b) as [[h' b'] r]. exact HC.
  - discriminate.
Qed.

Lemma uses_spec T F (ops : list (mix_op T)) o c : uses (fst (mix_run F mix_new ops)) o = Some c <->
  exists k, closes_at o k /\ has_checkpoint F ops k (c_node c) (c_parent c).
Proof.
  unfold has_checkpoint. set (m := fst _). clearbody m. destruct c as [x p]. cbn [c_node c_parent].
  assert (G : forall k, (match nth_error (m_marks m) k with Some a => nth_error (m_heap m) a | None => None end = Some (Cell x p)) <->
    exists a, nth_error (m_marks m) k = Some a /\ nth_error (m_heap m) a = Some (Cell x p)).
  { intros k. destruct (nth_error (m_marks m) k) as [a|]; split; [eauto|intros (a' & E & E'); congruence|discriminate|intros (a' & E & _); discriminate]. }
  destruct o; simpl; try (split; [discriminate|intros (k & [] & _)]).
  - rewrite G. split; [eauto|intros (k' & -> & H); auto].
  - rewrite G. split; [eauto|intros (k' & -> & H); auto].
Qed.

(** Every call on every builder returns, with success or a documented error. *)
Theorem C53_calls_return : forall T F (ops : list (mix_op T)) r,
  vec_flavor F -> In r (snd (mix_run F mix_new ops)) ->
  match r with
  | RUnit | RNode _ | RCheckpoint | RNoHandle => True
  | RErr CloseError | RErr CloseAtError | RErr Overflow | RErr (MissingNode _) => True
  | RErr BuildError | RErr FlavorError | RDiverge => False
  end.
Proof.
  intros T F ops r HF.
  assert (G : forall ops (m : mix T), mix_inv F m -> In r (snd (mix_run F m ops)) ->
    r <> RDiverge /\ r <> RErr FlavorError /\ r <> RErr BuildError).
  { clear ops. induction ops as [|o ops IH]; intros m Hm; simpl; [tauto|].
    pose proof (mix_step_inv F HF m o Hm) as H1.
    assert (Ho : let r := snd (mix_step F m o) in r <> RDiverge /\ r <> RErr FlavorError /\ r <> RErr BuildError).
    { destruct o as [|i|i o]; simpl.
      - repeat split; discriminate.
      - destruct (nth_error _ i); repeat split; discriminate.
      - destruct (nth_error (m_builders m) i) as [b|] eqn:Eb; [|repeat split; discriminate].
        pose proof (mix_call F HF m b o Hm (nth_error_In _ _ Eb)) as (_ & _ & _ & _ & G1 & G2).
        pose proof (no_build_error T F (World (m_heap m) b (m_marks m)) o HF) as NB.
        destruct (step F _ o) as [w r0]. cbn [fst snd] in *.
        assert (D : (exists c, uses m o = Some c /\ beyond F b c) \/ forall c, uses m o = Some c -> ~ beyond F b c).
        { destruct (uses m o) as [c|]; [|right; discriminate].
          assert (D : beyond F b c \/ ~ beyond F b c).
          { unfold beyond. destruct (is_full F b); [right; intros (_ & E & _); discriminate|].
            destruct (Nat.lt_ge_cases (tree_len (b_tree b)) (c_node c)); [|right; lia].
            destruct (opt_nat_eqb (c_parent c) (b_parent b)) eqn:Ep.
            - left. split; auto. unfold opt_nat_eqb in Ep. destruct (c_parent c), (b_parent b); try discriminate; auto. apply Nat.eqb_eq in Ep. congruence.
            - right. intros (E & _). rewrite E in Ep. unfold opt_nat_eqb in Ep. destruct (b_parent b); [rewrite Nat.eqb_refl in Ep|]; discriminate. }
          destruct D; [left; eauto|right; intros c' E; congruence]. }
        destruct D as [(c & Hc & Hbe)|D].
        + destruct (G1 c Hc Hbe) as (-> & _). repeat split; discriminate.
        + specialize (G2 D). destruct r0 as [| | |[]| |]; simpl in G2; repeat split; try discriminate; tauto. }
    destruct (mix_step F m o) as [m1 r1]. cbn [fst snd] in *. specialize (IH m1 H1). destruct (mix_run F m1 ops) as [m2 rs].
    cbn [fst snd] in *. intros [<-|Hr]; auto. }
  intros Hr. destruct (G ops mix_new (mix_inv_new F) Hr) as (A & B & C).
  destruct r as [| | |[]| |]; auto; congruence.
Qed.
Print Assumptions C53_calls_return.

(** In every builder, at every time: links stay in bounds, no chain is cyclic. *)
Theorem C53_links_in_bounds : forall T F (ops : list (mix_op T)) i b,
  vec_flavor F -> has_builder F ops i b -> links_in_bounds (b_tree b).
Proof.
  intros T F ops i b HF H. destruct (has_sound T F ops i b HF H) as [Hs _]. apply sound_wok in Hs. apply wok_links in Hs. exact Hs.
Qed.
Print Assumptions C53_links_in_bounds.

Theorem C53_iterators_end : forall T F (ops : list (mix_op T)) i b x n,
  vec_flavor F -> has_builder F ops i b -> fits F (b_tree b) -> tree_get (b_tree b) x = Some n ->
  every_iterator_ends F (b_tree b) n.
Proof.
  intros T F ops i b x n HF H Hfit E. destruct (has_sound T F ops i b HF H) as [Hs Hm]. apply sound_wok in Hs.
  apply (iterators_end T F _ x n Hs); auto. unfold tree_get, node_at in E.
  destruct (nth_error (t_nodes (b_tree b)) x) as [l|] eqn:El; [|discriminate]. injection E as <-.
  pose proof (fits_usize F _ Hfit) as HU. apply nth_lt in El. unfold small, tree_len in Hm.
  apply (node_id_spec F (x, l)); simpl; lia.
Qed.
Print Assumptions C53_iterators_end.

Theorem C53_searches_end : forall T F (ops : list (mix_op T)) i b x n,
  vec_flavor F -> has_builder F ops i b -> tree_get (b_tree b) x = Some n ->
  (forall St p (st : St), exists st' o, find_preceding_mut (t_nodes (b_tree b)) p st n = Ok (st', o)) /\
  (forall bs s e, exists o, node_with_range F bs (b_tree b) s e = Ok o).
Proof.
  intros T F ops i b x n HF H E. destruct (has_sound T F ops i b HF H) as [Hs Hm]. apply sound_wok in Hs.
  apply (searches_end T F _ x n Hs E).
Qed.
Print Assumptions C53_searches_end.

Lemma call_out T F (ops : list (mix_op T)) i b o : has_builder F ops i b ->
  last_out F ops (MCall i o) = snd (step F (World (m_heap (fst (mix_run F mix_new ops))) b (m_marks (fst (mix_run F mix_new ops)))) o) /\
  has_builder F (ops ++ [MCall i o]) i (w_builder (fst (step F (World (m_heap (fst (mix_run F mix_new ops))) b (m_marks (fst (mix_run F mix_new ops)))) o))).
Proof.
  unfold has_builder, last_out. intros H. rewrite mix_snoc. simpl. rewrite H. destruct (step F _ o) as [w r]. cbn [fst snd m_builders].
  split; auto. rewrite nth_upd, Nat.eqb_refl, H. auto.
Qed.

Lemma beyond_spec T F (b : builder T) c : beyond F b c <->
  c_parent c = b_parent b /\ room F (b_tree b) /\ tree_len (b_tree b) < c_node c.
Proof. unfold beyond. destruct (room_full T F b) as [R _]. rewrite R. tauto. Qed.

(** MissingNode, exactly: a close_at whose checkpoint lies below the node open now, but past the
    number of nodes of this builder. *)
Theorem C53_missing : forall T F (ops : list (mix_op T)) i b o, vec_flavor F -> has_builder F ops i b ->
  (exists x, last_out F ops (MCall i o) = RErr (MissingNode x)) <->
  (exists k node, closes_at o k /\ has_checkpoint F ops k node (b_parent b) /\
     room F (b_tree b) /\ tree_len (b_tree b) < node).
Proof.
  intros T F ops i b o HF H. destruct (call_out T F ops i b o H) as [-> _].
  destruct (mix_call F HF _ b o (mix_reached T F ops HF) (nth_error_In _ _ H)) as (_ & _ & _ & _ & G1 & G2).
  split.
  - intros (x & Ex). rewrite Ex in G2.
    destruct (uses (fst (mix_run F mix_new ops)) o) as [c|] eqn:Eu.
    + destruct (opt_nat_eqb (c_parent c) (b_parent b)) eqn:Ep; [|exfalso; apply G2; intros c' E; injection E as <-; intros (E & _);
        rewrite E in Ep; unfold opt_nat_eqb in Ep; destruct (b_parent b); [rewrite Nat.eqb_refl in Ep|]; discriminate].
      assert (Hp : c_parent c = b_parent b).
      { unfold opt_nat_eqb in Ep. destruct (c_parent c), (b_parent b); try discriminate; auto. apply Nat.eqb_eq in Ep. congruence. }
      apply uses_spec in Eu. destruct Eu as (k & Hk & Hc). exists k, (c_node c). rewrite <- Hp. split; [auto|]. split; [auto|].
      destruct (is_full F b) eqn:Ef; [exfalso; apply G2; intros c' E; injection E as <-; intros (_ & E & _); congruence|].
      split; [apply room_full; auto|].
      destruct (Nat.lt_ge_cases (tree_len (b_tree b)) (c_node c)); auto.
      exfalso; apply G2; intros c' E; injection E as <-; intros (_ & _ & E); lia.
    + exfalso. apply G2. discriminate.
  - intros (k & node & Hk & Hc & Hr & Hl). eexists. apply (G1 (Cell node (b_parent b))).
    + apply uses_spec. eauto.
    + apply beyond_spec. auto.
Qed.
Print Assumptions C53_missing.

(** The refused call does add its node: to the values of the builder, under the number in the error;
    and no checkpoint changes. *)
Theorem C53_missing_adds : forall T F (ops : list (mix_op T)) i b o x, vec_flavor F -> has_builder F ops i b ->
  last_out F ops (MCall i o) = RErr (MissingNode x) ->
  x = tree_len (b_tree b) /\
  exists b', has_builder F (ops ++ [MCall i o]) i b' /\ tree_len (b_tree b') = S x /\
    value_at (b_tree b') x = op_value o /\ op_value o <> None /\ b_parent b' = b_parent b /\
    forall k node parent, has_checkpoint F (ops ++ [MCall i o]) k node parent <-> has_checkpoint F ops k node parent.
Proof.
  intros T F ops i b o x HF H E. destruct (call_out T F ops i b o H) as [E1 H1].
  assert (HM : exists x, last_out F ops (MCall i o) = RErr (MissingNode x)) by eauto.
  apply (C53_missing T F ops i b o HF H) in HM. destruct HM as (k & node & Hk & Hc & Hr & Hl).
  destruct (mix_call F HF _ b o (mix_reached T F ops HF) (nth_error_In _ _ H)) as (_ & _ & _ & _ & G1 & _).
  destruct (G1 (Cell node (b_parent b))) as (A & B & C & D & d & Hd & Hv).
  { apply uses_spec. eauto. }
  { apply beyond_spec. auto. }
  rewrite E1 in E. rewrite A in E. injection E as <-. split; auto. eexists. split; [exact H1|].
  split; [apply B|]. rewrite value_at_datas. change (datas (t_nodes (b_tree ?q))) with (b_datas q). 
  split; [|split; [|split]].
  - unfold b_datas in Hv |- *. rewrite Hv, Hd. rewrite nth_error_app2 by (unfold datas; rewrite map_length; auto).
    unfold datas. rewrite map_length. unfold tree_len. rewrite Nat.sub_diag. auto.
  - congruence.
  - apply B.
  - intros k' node' parent'. unfold has_checkpoint. rewrite mix_snoc. simpl. rewrite H. 
    destruct (step F _ o) as [w r]. cbn [fst snd m_builders m_heap m_marks] in *. rewrite C, D. tauto.
Qed.
Print Assumptions C53_missing_adds.

(** A call changes only the builder it is made on. *)
Theorem C53_isolated : forall T F (ops : list (mix_op T)) i o j b, j <> i ->
  has_builder F ops j b -> has_builder F (ops ++ [MCall i o]) j b.
Proof.
  unfold has_builder. intros T F ops i o j b Hj H. rewrite mix_snoc. simpl. destruct (nth_error _ i) as [bi|] eqn:Ei; [|exact H].
  destruct (step F _ o) as [w r]. cbn [fst m_builders]. rewrite nth_upd. destruct (Nat.eqb_spec i j); [congruence|exact H].
Qed.
Print Assumptions C53_isolated.

(** A new builder is empty, a clone is what it was cloned from, and neither changes another builder. *)
Theorem C53_made : forall T F (ops : list (mix_op T)) n,
  (forall i, (exists b, has_builder F ops i b) <-> i < n) ->
  (has_builder F (ops ++ [MNew]) n builder_new /\ last_out F ops MNew = RUnit /\
   tree_is_empty (b_tree (@builder_new T)) = true /\ b_parent (@builder_new T) = None /\ b_cursor (@builder_new T) = 0%N) /\
  (forall i b, has_builder F ops i b -> last_out F ops (MClone i) = RUnit /\
     exists c, has_builder F (ops ++ [MClone i]) n c /\ b_tree c = b_tree b /\ b_parent c = b_parent b /\
       b_sibling c = b_sibling b /\ b_cursor c = b_cursor b) /\
  (forall o j b, o = MNew \/ (exists i, o = MClone i) -> has_builder F ops j b -> has_builder F (ops ++ [o]) j b) /\
  (forall o k node parent, o = MNew \/ (exists i, o = MClone i) -> has_checkpoint F (ops ++ [o]) k node parent <-> has_checkpoint F ops k node parent).
Proof.
  intros T F ops n Hn. unfold has_builder, last_out, has_checkpoint in *.
  set (m := fst (mix_run F mix_new ops)) in *.
  assert (L : length (m_builders m) = n).
  { destruct (Nat.lt_trichotomy (length (m_builders m)) n) as [H|[H|H]]; auto; exfalso.
    - apply Hn in H as (b & Eb). rewrite (proj2 (nth_error_None _ _)) in Eb by lia. discriminate.
    - destruct (nth_error (m_builders m) n) as [b|] eqn:Eb; [|apply nth_error_None in Eb; lia].
      assert (n < n) by (apply Hn; eauto). lia. }
  assert (E : forall A (x : A) (b : list A), nth_error (b ++ [x]) (length b) = Some x). { intros. rewrite nth_error_app2, Nat.sub_diag by lia. auto. }
  split; [|split; [|split]].
  - rewrite mix_snoc. cbn [mix_step fst m_builders]. rewrite <- L. fold m. rewrite E. repeat split.
  - intros i b Hb. rewrite mix_snoc. fold m. cbn [mix_step]. rewrite Hb. split; auto. exists (builder_clone b). cbn [fst m_builders]. rewrite <- L, E. repeat split.
  - intros o j b Ho Hb. rewrite mix_snoc. fold m.
    assert (Hj : j < length (m_builders m)) by (apply nth_error_Some; congruence).
    destruct Ho as [->|(i & ->)]; cbn [mix_step].
    + cbn [fst m_builders]. rewrite nth_error_app1; auto.
    + destruct (nth_error (m_builders m) i); auto. cbn [fst m_builders]. rewrite nth_error_app1; auto.
  - intros o k node parent Ho. rewrite mix_snoc. fold m. destruct Ho as [->|(i & ->)]; cbn [mix_step].
    + reflexivity.
    + destruct (nth_error (m_builders m) i); reflexivity.
Qed.
Print Assumptions C53_made.

(** Identifiers keep their values, whatever happens later. *)
Theorem C53_values : forall T F (ops more : list (mix_op T)) i b x, vec_flavor F -> has_builder F ops i b ->
  x < tree_len (b_tree b) ->
  exists b', has_builder F (ops ++ more) i b' /\ tree_len (b_tree b) <= tree_len (b_tree b') /\
    value_at (b_tree b') x = value_at (b_tree b) x /\ value_at (b_tree b) x <> None.
Proof.
  intros T F ops more i b x HF H Hx.
  assert (G : exists b' D, has_builder F (ops ++ more) i b' /\ b_datas b' = b_datas b ++ D).
  { rewrite <- (rev_involutive more). induction (rev more) as [|o l IH]; simpl.
    - rewrite app_nil_r. exists b, []. rewrite app_nil_r. auto.
    - destruct IH as (b1 & D & H1 & E1). rewrite app_assoc. destruct o as [|j|j o].
      + exists b1, D. split; auto. unfold has_builder in *. rewrite mix_snoc. simpl. rewrite nth_error_app1; auto. eapply nth_lt; eauto.
      + exists b1, D. split; auto. unfold has_builder in *. rewrite mix_snoc. simpl. destruct (nth_error _ j); auto.
        simpl. rewrite nth_error_app1; auto. eapply nth_lt; eauto.
      + destruct (Nat.eq_dec j i) as [->|Hj]; [|exists b1, D; split; auto; apply C53_isolated; auto].
        destruct (call_out T F _ i b1 o H1) as [E2 H2]. 
        destruct (mix_call F HF _ b1 o (mix_reached T F _ HF) (nth_error_In _ _ H1)) as (_ & _ & _ & _ & G1 & G2).
        assert (X : (exists x, last_out F (ops ++ rev l) (MCall i o) = RErr (MissingNode x)) \/ 
          fine_out (last_out F (ops ++ rev l) (MCall i o))).
        { pose proof (C53_calls_return T F ((ops ++ rev l) ++ [MCall i o]) (last_out F (ops ++ rev l) (MCall i o)) HF) as R.
          assert (Hin : In (last_out F (ops ++ rev l) (MCall i o)) (snd (mix_run F mix_new ((ops ++ rev l) ++ [MCall i o])))).
          { rewrite mix_run_app. unfold last_out. destruct (mix_run F mix_new (ops ++ rev l)) as [m rs]. cbn [fst].
            cbn [mix_run]. destruct (mix_step F m (MCall i o)) as [m' r']. cbn [snd]. apply in_or_app. right. simpl. auto. }
          specialize (R Hin). destruct (last_out F (ops ++ rev l) (MCall i o)) as [| | |[]| |]; simpl; auto; try tauto. left; eauto. }
        destruct X as [X|X].
        * apply (C53_missing T F _ i b1 o HF H1) in X. destruct X as (k & node & Hk & Hc & Hr & Hl).
          destruct (G1 (Cell node (b_parent b1))) as (_ & _ & _ & _ & d & _ & Hv).
          { apply uses_spec. eauto. }
          { apply beyond_spec. auto. }
          eexists. exists (D ++ [d]). split; [exact H2|]. rewrite Hv, E1, app_assoc. auto.
        * rewrite E2 in X. pose proof (step_grows F HF _ o X) as GR. unfold w_datas in GR. cbn [w_builder] in GR.
          eexists. destruct (snd (step F _ o)) as [|id| | | |]; simpl in GR; try (exists D; split; [exact H2|]; rewrite GR; exact E1).
          destruct GR as (_ & d & _ & GR). exists (D ++ [d]). split; [exact H2|]. rewrite GR, E1, app_assoc. auto. }
  destruct G as (b' & D & H' & E). exists b'. split; auto. rewrite !value_at_datas. 
  change (datas (t_nodes (b_tree b'))) with (b_datas b'). change (datas (t_nodes (b_tree b))) with (b_datas b).
  rewrite <- len_datas in Hx. rewrite <- !len_datas, E, app_length. split; [lia|]. rewrite nth_error_app1 by exact Hx.
  split; auto. apply nth_error_Some. exact Hx.
Qed.
Print Assumptions C53_values.

(** One builder used alone is the case of all other theorems. *)
Theorem C53_one_builder : forall T F (ops : list (op T)),
  let m := fst (mix_run F mix_new (MNew :: map (MCall 0) ops)) in
  m_builders m = [w_builder (run_world F ops)] /\ m_heap m = w_heap (run_world F ops) /\
  m_marks m = w_env (run_world F ops) /\
  snd (mix_run F mix_new (MNew :: map (MCall 0) ops)) = RUnit :: run_outs F ops.
Proof.
  intros T F ops. unfold run_world, run_outs.
  assert (G : forall (ops : list (op T)) w, mix_run F (Mixed (w_heap w) [w_builder w] (w_env w)) (map (MCall 0) ops) =
    (Mixed (w_heap (fst (run F w ops))) [w_builder (fst (run F w ops))] (w_env (fst (run F w ops))), snd (run F w ops))).
  { clear ops. induction ops as [|o ops IH]; intros w; [reflexivity|]. cbn [map mix_run mix_step nth_error m_builders m_heap m_marks run].
    replace (World (w_heap w) (w_builder w) (w_env w)) with w by (destruct w; auto).
    destruct (step F w o) as [w1 r]. cbn [upd]. rewrite IH. destruct (run F w1 ops). auto. }
  specialize (G ops world_new). cbn [map mix_run mix_step m_builders m_heap m_marks mix_new app].
  cbn [world_new w_heap w_builder w_env] in G. rewrite G. destruct (run F world_new ops). auto.
Qed.
Print Assumptions C53_one_builder.

(** The example of src/error.rs lines 99-117, and what it leaves behind: the refused call has added
    its node to [a]. *)
Example C53_documented :
  let ops := [MNew; MNew; MCall 1 (OOpen 1); MCall 1 OClose; MCall 1 OCheckpoint] in
  last_out flavor_default ops (MCall 0 (OCloseAt 0 7)) = RErr (MissingNode 0) /\
  has_checkpoint flavor_default ops 0 1 None /\
  exists b, has_builder flavor_default (ops ++ [MCall 0 (OCloseAt 0 7)]) 0 b /\
    tree_len (b_tree b) = 1 /\ value_at (b_tree b) 0 = Some 7 /\ tree_is_empty (b_tree b) = false.
Proof.
  split; [vm_compute; reflexivity|]. split; [exists 0; split; vm_compute; reflexivity|].
  eexists. split; [vm_compute; reflexivity|]. vm_compute. auto.
Qed.

(** A refused call is not always without effect: the claim of C13 does not extend to foreign
    checkpoints. *)
Theorem C53_unchanged_refuted : exists (F : flavor) (ops : list (mix_op nat)) i o b b' e,
  vec_flavor F /\ has_builder F ops i b /\ last_out F ops (MCall i o) = RErr e /\ room F (b_tree b) /\
  has_builder F (ops ++ [MCall i o]) i b' /\ tree_len (b_tree b') <> tree_len (b_tree b) /\
  tree_is_empty (b_tree b) = true /\ tree_is_empty (b_tree b') = false.
Proof.
  exists flavor_default, [MNew; MNew; MCall 1 (OOpen 1); MCall 1 OClose; MCall 1 OCheckpoint], 0, (OCloseAt 0 7).
  eexists. eexists. exists (MissingNode 0). split; [vm_compute; auto|]. split; [vm_compute; reflexivity|].
  split; [vm_compute; reflexivity|]. split; [unfold room; vm_compute; reflexivity|]. split; [vm_compute; reflexivity|].
  vm_compute. split; [discriminate|auto].
Qed.
Print Assumptions C53_unchanged_refuted.

(** A foreign checkpoint that names a node of this builder is taken for one of its own: [b]'s
    checkpoint, made before any of the two tokens of [a], wraps the second token of [a]. *)
Example C53_accepted :
  let ops := [MNew; MNew; MCall 1 (OToken 9 1%N); MCall 1 OCheckpoint;
              MCall 0 (OToken 1 1%N); MCall 0 (OToken 2 1%N)] in
  last_out flavor_default ops (MCall 0 (OCloseAt 0 7)) = RNode 2.
Proof. vm_compute. reflexivity. Qed.
