(** Property theorems: last children, iteration over children and searches by range, after every history of calls (C68). *)
From Coq Require Import Lia Permutation QArith.
From Verif Require Import Base Pointer Index Tree Builder Hist Node Iter Query Edit Spec SpecReads SpecShape SpecTour SpecEnds Rep Refine TreeRep Enum Walk AllHist StepFacts AllWalk AllPlaced Modify
  PropsTree PropsSafe AllReads Demo PropsMisuse Settle Shape Tour Ends PropsShape PropsTour Inside Nav.
Open Scope nat_scope.

Definition ends_after {T} (F : flavor) (ops : list (op T)) : end_state := e_run F shape_new ends_new ops.
Lemma history_ends T F (ops : list (op T)) : vec_flavor F -> ends_of (tree_so_far F ops) = ends_after F ops.
Proof.
  intros HF. pose proof (run_ends F HF ops world_new shape_new (conj wok_new placed_new) sim_new) as G. exact G.
Qed.

(** [last] of a node and of the tree. *)
Theorem C68_last : forall T F (ops : list (op T)), vec_flavor F -> let t := tree_so_far F ops in
  option_map fst (tree_last t) = e_tail (ends_after F ops) /\
  length (e_lasts (ends_after F ops)) = tree_len t /\
  forall i n, tree_get t i = Some n -> nth_error (e_lasts (ends_after F ops)) i = Some (option_map fst (node_last (t_nodes t) n)).
Proof.
  intros T F ops HF t. rewrite <- (history_ends T F ops HF). fold t. destruct (run_placed F HF ops) as [[(lo & hi & cap & stk & HB & _) _] _].
  assert (G : forall y, y < tree_len t -> option_map fst (node_opt (t_nodes t) (Some y)) = Some y).
  { intros y Hy. destruct (nth_in (t_nodes t) y Hy) as [ly E]. simpl. unfold node_at. rewrite E. auto. }
  split; [|split].
  - unfold tree_last. simpl. destruct (t_last t) as [y|] eqn:E; auto. apply G. apply (bi_last _ _ _ _ _ HB). exact E.
  - simpl. unfold lasts. apply map_length.
  - intros i n Hn. simpl. unfold lasts. rewrite nth_error_map. unfold tree_get, node_at in Hn. destruct (nth_error (t_nodes t) i) as [li|] eqn:Ei; [|discriminate]. injection Hn as <-. simpl. f_equal.
    unfold node_last. simpl. destruct (l_last li) as [y|] eqn:E; auto. symmetry. apply G. destruct (li_last _ _ _ _ _ _ (bi_table _ _ _ _ _ HB _ _ Ei) y E). auto.
Qed.
Print Assumptions C68_last.

Lemma tail_step T F (s : shape T) o e : (h_open s <> [] -> h_parents s <> []) -> (forall k, h_parents s = [] -> run_at k (h_forest s) = None) -> (h_parents s <> [] -> e_tail e <> None) ->
  let '(s', r) := h_step F s o in h_parents s' <> [] -> e_tail (e_step F s o s' r e) <> None.
Proof.
  intros Ho Hr He. destruct (h_step F s o) as [s' r] eqn:E.
  assert (N : forall sh n e0, e_tail (e_note F sh o n e0) = e_tail e0) by (intros; unfold e_note; destruct (fl_indexes F), o; auto; destruct (len_is_empty F len); auto).
  destruct r; unfold e_step.
  2:{ intros _. rewrite N. assert (R0 : h_parents s = [] -> run_of s o = None).
      { intros Hp. unfold run_of. destruct o; auto; destruct (nth_error (h_handles s) k); auto; destruct (nth_error (h_cells s) n) as [[? ?]|]; auto. }
      destruct (run_of s o) as [[x later]|].
      - simpl. apply He. intros Hp. specialize (R0 Hp). discriminate.
      - unfold e_add. destruct (h_open s) as [|p q]; simpl; [discriminate|]. apply He, Ho. discriminate. }
  all: intros Hp; apply He; intros Hp0; apply Hp; clear He Hp N; revert E Hp0; destruct o; simpl.
  all: try (unfold h_open_with; destruct (h_full F s); intros E; inversion E; subst; auto; fail).
  all: try (unfold h_close; destruct (h_open s); [|destruct (find _ _)]; intros E; inversion E; subst; auto; fail).
  all: try (unfold h_token; destruct (len_is_empty F _); [|destruct (ix_checked_add_len F _ _)]; try destruct (h_full F s); intros E; inversion E; subst; auto; fail).
  all: try (unfold h_token_with; destruct (h_full F s); intros E; inversion E; subst; auto; fail).
  all: try (unfold h_checkpoint; destruct (h_full F s); [|cbv zeta; destruct (last_error (h_cells s)) as [[? ?]|]; [destruct (_ && _)|]]; intros E; inversion E; subst; auto; fail).
  all: try (unfold h_close_at; destruct (nth_error (h_handles s) k); [|intros E; inversion E; subst; auto; fail]; destruct (nth_error (h_cells s) n) as [[? ?]|]; [|intros E; inversion E; subst; auto; fail];
     destruct (negb _); [|destruct (h_full F s)]; [..|destruct (run_at n0 (h_forest s)) as [[? ?]|]]; intros E; inversion E; subst; auto; fail).
  all: intros E; inversion E; subst; auto.
Qed.

(** The one that counts as last is inside the node (but not always among its children); a node without children
    has none.  The same for the tree. *)
Theorem C68_inside : forall T F (ops : list (op T)) l, vec_flavor F -> let t := tree_so_far F ops in
  reads t (tree_first t) l ->
  (forall x n, In x (preorder_list l) -> tree_get t (r_id x) = Some n ->
     match node_last (t_nodes t) n with
     | Some m => In (fst m) (map r_id (preorder_list (r_kids x)))
     | None => r_kids x = []
     end) /\
  match tree_last t with
  | Some m => In (fst m) (map r_id (preorder_list l))
  | None => l = []
  end.
Proof.
  intros T F ops l HF t Hl.
  pose proof (inside_run F HF ops world_new shape_new (conj wok_new placed_new) sim_new) as G.
  assert (G0 : lasts_inside (T := T) shape_new (ends_of (T := T) (b_tree (w_builder world_new)))) by (split; [auto|intros x []]). specialize (G G0). clear G0.
  change (ends_of (b_tree (w_builder (fst (run F world_new ops))))) with (ends_of t) in G.
  destruct (history_sim T F ops HF) as (_ & [HS _ _ _] & Hw). unfold shape_of in HS. set (s := fst (h_run F shape_new ops)) in *.
  pose proof (C64_one T t _ _ _ Hl (sees_reads T t _ _ (cs_sees _ _ HS))) as SR.
  destruct (C68_last T F ops HF) as (C1 & C2 & C3). fold t in C1, C2, C3. rewrite <- (history_ends T F ops HF) in C1, C2, C3. fold t in C1, C2, C3.
  split.
  - intros x n Hx Hn. destruct (same_in T _ _ SR x Hx) as (x' & Hx' & E1 & _ & E2 & _). destruct G as [_ G]. specialize (G x' Hx').
    specialize (C3 _ _ Hn). rewrite E1, C3 in G. destruct (node_last (t_nodes t) n) as [m|]; simpl in G.
    + rewrite <- E2. exact G.
    + rewrite G in E2. simpl in E2. destruct (r_kids x) as [|[? ? ? ? ?] ?]; auto. rewrite ids_cons in E2. discriminate.
  - destruct (placed_reads _ _ Hw) as (_ & _ & Hp). specialize (Hp l Hl). change (tree_len (b_tree (w_builder (run_world F ops)))) with (tree_len t) in Hp.
    destruct (tree_last t) as [m|] eqn:Em.
    + apply (Permutation_in (fst m) (Permutation_sym Hp)). apply in_seq. split; [lia|]. unfold tree_last in Em. pose proof (real_opt T t (t_last t) m Em) as Er.
      unfold tree_get, node_at in Er. destruct (nth_error (t_nodes t) (fst m)) eqn:E; [|discriminate]. apply nth_lt in E. exact E.
    + assert (TL : h_parents s <> [] -> e_tail (ends_of t) <> None).
      { unfold s. assert (K : forall (ops : list (op T)) (w : world T) s, wplaced w -> sim w s -> (h_parents s <> [] -> e_tail (ends_of (b_tree (w_builder w))) <> None) ->
           (h_parents (fst (h_run F s ops)) <> [] -> e_tail (ends_of (b_tree (w_builder (fst (run F w ops))))) <> None)).
        { clear -HF. induction ops as [|o ops IH]; intros w s Hw HS H; simpl; auto.
          pose proof (step_sim F HF w s o Hw HS) as A. pose proof (step_ends F HF w s o Hw HS) as B.
          pose proof (sm_core _ _ HS) as HC. destruct (csim_ids _ _ Hw HC) as [_ Hids].
          assert (Ho : h_open s <> [] -> h_parents s <> []).
          { intros Ho Hp. destruct (h_open s) as [|p r] eqn:Eo; [tauto|]. pose proof (cs_follows _ _ HC) as Fo. rewrite Eo, Hp in Fo. destruct Fo as [Fo _]. destruct p; discriminate. }
          assert (Hr : forall k, h_parents s = [] -> run_at k (h_forest s) = None).
          { intros k Hp. pose proof (run_at_spec _ _ _ k (cs_sees _ _ HC)) as R. destruct (run_at k (h_forest s)) as [[X later]|]; auto. destruct R as (_ & _ & R). apply Hids in R.
            rewrite <- (cs_len _ _ HC), Hp in R. simpl in R. lia. }
          pose proof (tail_step T F s o _ Ho Hr H) as C.
          assert (Hw1 : wplaced (fst (step F w o))) by (split; [apply step_ok; auto; apply Hw|apply step_placed; auto]).
          destruct (step F w o) as [w1 r1]. destruct (h_step F s o) as [s1 r1']. destruct A as [-> A]. simpl in Hw1, B. rewrite <- B in C. specialize (IH w1 s1 Hw1 A C).
          destruct (run F w1 ops) as [w2 rs]. destruct (h_run F s1 ops) as [s2 rs']. exact IH. }
        apply (K ops world_new shape_new (conj wok_new placed_new) sim_new). intros C. exfalso. apply C. reflexivity. }
      rewrite <- C1 in TL. pose proof (cs_len _ _ HS) as L.
      assert (Z : h_parents s = []). { destruct (h_parents s); auto. exfalso. apply TL; [discriminate|auto]. }
      rewrite Z in L. simpl in L. change (b_tree (w_builder (run_world F ops))) with t in L. rewrite <- L in Hp. simpl in Hp. apply Permutation_length in Hp. rewrite map_length in Hp. destruct l as [|[? ? ? ? ?] ?]; auto. discriminate.
Qed.
Print Assumptions C68_inside.

(** ** Children *)
Section Children.
Context {T : Type}.
Variable ns : list (links T).
Lemma children_row z o l : sees (look ns) o l -> 
  enum_rel (total (children_next ns)) (shows ns) (ChildrenIt o (Some z)) (upto z l).
Proof.
  induction 1 as [|i d sp f nx k kids rest E H1 IH1 H2 IH2].
  - apply enum_rel_nil. apply (enumerates_stuck _ (fun s => s = ChildrenIt None (Some z))); auto. intros ? ->. eexists. split; reflexivity.
  - destruct (sees_shows ns _ _ _ _ _ k _ E H1) as (lk & El & Ef & En & Hsh). simpl upto.
    destruct (Nat.eqb_spec i z) as [->|Hne].
    + eapply enum_rel_cons; [|exact Hsh|].
      * unfold total, children_next. simpl. rewrite El, Nat.eqb_refl. reflexivity.
      * apply enum_rel_nil. apply (enumerates_stuck _ (fun s => s = ChildrenIt None (Some z))); auto. intros ? ->. eexists. split; reflexivity.
    + eapply enum_rel_cons; [|exact Hsh|].
      * unfold total, children_next. simpl. rewrite El. destruct (Nat.eqb_spec i z); [congruence|]. reflexivity.
      * rewrite En. exact IH2.
Qed.
End Children.

(** The row below [o]: the children of a node, or the roots. *)
Definition its_children {T} (t : tree T) (p : option (rose T)) : option children_it :=
  match p with Some x => option_map node_children (tree_get t (r_id x)) | None => Some (tree_children t) end.
Definition its_last {T} (t : tree T) (p : option (rose T)) : option (node T) :=
  match p with
  | Some x => match tree_get t (r_id x) with Some n => node_last (t_nodes t) n | None => None end
  | None => tree_last t
  end.

Lemma shows_enumerates {T S} (ns : list (links T)) (nxt : S -> result (S * option (node T))) s xs : enum_rel nxt (shows ns) s xs -> enumerates_nodes nxt s xs.
Proof. intros (items & A & B). exists items. split; auto. eapply shows_view; eauto. Qed.

Lemma row_of T F (ops : list (op T)) l p s : vec_flavor F -> let t := tree_so_far F ops in
  reads t (tree_first t) l -> In (p, s) (sibling_lists l) ->
  exists o, sees (look (t_nodes t)) o s /\ level_first t (option_map r_id p) = o /\
    (exists ol, its_children t p = Some (ChildrenIt o ol) /\ (forall m, its_last t p = Some m -> ol = Some (fst m)) /\ (its_last t p = None -> s = [])).
Proof.
  intros HF t Hl Hs. pose proof (history_sees T F ops l HF Hl) as S0. fold t in S0. destruct (C68_inside T F ops l HF Hl) as [CI CT]. fold t in CI, CT.
  assert (NO : forall ol m, node_opt (t_nodes t) ol = Some m -> ol = Some (fst m)).
  { intros [i|] m; [|discriminate]. simpl. unfold node_at. destruct (nth_error (t_nodes t) i); [|discriminate]. intros E. injection E as <-. auto. }
  destruct Hs as [E|Hs].
  - injection E as <- <-. exists (t_first t). split; auto. split; auto. exists (t_last t). split; auto. split; [apply NO|]. simpl its_last. intros En. rewrite En in CT. auto.
  - apply in_map_iff in Hs as (q & E & Hq). injection E as <- <-.
    assert (G : forall o m, sees (look (t_nodes t)) o m -> forall q, In q (preorder_list m) -> exists f nx, look (t_nodes t) (r_id q) = Some (r_data q, r_span q, f, nx) /\ sees (look (t_nodes t)) f (r_kids q)).
    { clear. induction 1 as [|i d sp f nx k kids rest E H1 IH1 H2 IH2]; intros q Hq; [destruct Hq|]. apply in_pre_cons in Hq as [->|[Hq|Hq]]; eauto. }
    destruct (G _ _ S0 q Hq) as (f & nx & A & B). destruct (look_node _ _ _ _ _ _ A) as (lq & Eq & _ & _ & Ef & _).
    exists f. split; auto. simpl. rewrite Eq. split; auto. unfold tree_get, node_at. rewrite Eq. simpl. exists (l_last lq). rewrite <- Ef. split; [auto|]. split; [apply NO|].
    intros En. specialize (CI q (r_id q, lq) Hq). unfold tree_get, node_at in CI. rewrite Eq in CI. specialize (CI eq_refl). rewrite En in CI. auto.
Qed.

(** [children] from the front. *)
Theorem C68_children : forall T F (ops : list (op T)) l p s it, vec_flavor F -> let t := tree_so_far F ops in
  reads t (tree_first t) l -> In (p, s) (sibling_lists l) -> its_children t p = Some it ->
  enumerates_nodes (total (children_next (t_nodes t))) it
    (match its_last t p with Some m => upto (fst m) s | None => [] end).
Proof.
  intros T F ops l p s it HF t Hl Hs Hit. destruct (row_of T F ops l p s HF Hl Hs) as (o & A & _ & ol & B & C & D). fold t in A, B, C, D. rewrite Hit in B. injection B as ->.
  destruct (its_last t p) as [m|].
  - rewrite (C m eq_refl). eapply shows_enumerates. apply children_row. exact A.
  - rewrite (D eq_refl) in A. inversion A; subst. exists []. split; auto. apply (enumerates_stuck _ (fun s => s = ChildrenIt None ol)); auto. intros ? ->. eexists. split; reflexivity.
Qed.
Print Assumptions C68_children.

(** [children] from the back: the one that counts as last and those before it in its own row. *)
Theorem C68_children_back : forall T F (ops : list (op T)) l p s it m q s1 y s2, vec_flavor F -> let t := tree_so_far F ops in
  reads t (tree_first t) l -> In (p, s) (sibling_lists l) -> its_children t p = Some it -> its_last t p = Some m ->
  In (q, s1 ++ y :: s2) (sibling_lists l) -> r_id y = fst m ->
  enumerates_nodes (total (children_next_back (t_nodes t))) it (rev (s1 ++ [y])).
Proof.
  intros T F ops l p s it m q s1 y s2 HF t Hl Hs Hit Hm Hq Hy. destruct (row_of T F ops l p s HF Hl Hs) as (o & A & Lf & ol & B & C & D). fold t in A, Lf, B, C, D. rewrite Hit in B. injection B as ->.
  rewrite (C m Hm), <- Hy. clear C D Hit Hy.
  assert (Hf : exists f, o = Some f).
  { destruct (C68_inside T F ops l HF Hl) as [CI CT]. fold t in CI, CT.
    assert (s <> []) as Hne.
    { intros ->. destruct Hs as [E|Hs].
      - injection E as <- ->. simpl in Hm. rewrite Hm in CT. destruct CT.
      - apply in_map_iff in Hs as (x & E & Hx). injection E as <- E. simpl in Hm. destruct (tree_get t (r_id x)) as [n|] eqn:En; [|discriminate].
        specialize (CI x n Hx En). rewrite Hm, E in CI. destruct CI. }
    inversion A; subst; eauto. congruence. }
  destruct Hf as [f ->]. clear Hm. unfold its_last in *.
  assert (Pf : forall n, tree_get t f = Some n -> node_prev (t_nodes t) n = None).
  { intros n Hn. destruct (history_sim T F ops HF) as (_ & _ & [_ HP]). destruct (pl_first _ HP _ _ Lf) as (lf & Ef & Hp & _). change (b_tree (w_builder (run_world F ops))) with t in Ef.
    unfold tree_get, node_at in Hn. rewrite Ef in Hn. injection Hn as <-. unfold node_prev. simpl. rewrite Hp. auto. }
  pose proof (history_sees T F ops l HF Hl) as S0. fold t in S0.
  clear Lf A Hs. apply (shows_enumerates (t_nodes t)). revert y s2 Hq. induction s1 as [|z s1 IH] using rev_ind; intros y s2 Hq.
  - simpl. destruct (sees_siblings _ _ _ S0 _ _ Hq) as (o & So). simpl in So. destruct y as [i k d sp kids]. inversion So as [|i' d' sp' f' nx k' kids' rest Ei H1 H2]; subst.
    destruct (sees_shows (t_nodes t) _ _ _ _ _ k _ Ei H1) as (lk & El & _ & _ & Hsh).
    pose proof (C65_prev T F ops l HF Hl q [] _ s2 (i, lk) Hq) as P. fold t in P. unfold tree_get, node_at in P. simpl r_id in P. rewrite El in P. specialize (P eq_refl). unfold node_prev in P. simpl in P.
    eapply enum_rel_cons; [unfold total, children_next_back; simpl; rewrite El; reflexivity|exact Hsh|]. apply enum_rel_nil.
    apply (enumerates_stuck _ (fun c => ch_last c = None \/ exists z, ch_last c = Some z /\ nth_error (t_nodes t) z = None)).
    + unfold total, children_next_back. intros [c1 c2] [Ec|(z & Ec & Ez)]; simpl in Ec; subst c2; simpl; eauto. rewrite Ez. eauto.
    + destruct (Nat.eqb i f); simpl; auto. destruct (l_prev lk) as [z|] eqn:Ez; auto. right. exists z. split; auto. simpl in P. unfold node_at in P. destruct (nth_error (t_nodes t) z); auto. discriminate.
  - rewrite <- app_assoc in Hq. simpl in Hq. specialize (IH z (y :: s2) Hq). rewrite rev_unit.
    change (z :: y :: s2) with ([z] ++ y :: s2) in Hq. rewrite app_assoc in Hq.
    destruct (sees_siblings _ _ _ S0 _ _ Hq) as (o & So). apply sees_tail in So. destruct y as [i k d sp kids]. simpl in So. inversion So as [|i' d' sp' f' nx k' kids' rest Ei H1 H2]; subst.
    destruct (sees_shows (t_nodes t) _ _ _ _ _ k _ Ei H1) as (lk & El & _ & _ & Hsh).
    pose proof (C65_prev T F ops l HF Hl q _ _ s2 (i, lk) Hq) as P. fold t in P. unfold tree_get, node_at in P. simpl r_id in P. rewrite El in P. specialize (P eq_refl).
    assert (LE : last_error (s1 ++ [z]) = Some z). { clear. induction s1 as [|a [|b s1] IH]; auto. }
    rewrite LE in P. simpl in P.
    eapply enum_rel_cons; [unfold total, children_next_back; simpl; rewrite El; reflexivity|exact Hsh|].
    destruct (Nat.eqb_spec i f) as [->|Hne].
    { exfalso. unfold tree_get, node_at in Pf. rewrite El in Pf. specialize (Pf _ eq_refl). rewrite Pf in P. discriminate. }
    unfold node_prev in P. simpl in P. destruct (l_prev lk) as [z'|]; [|discriminate]. simpl in P. unfold node_at in P. destruct (nth_error (t_nodes t) z'); [|discriminate]. simpl in P. injection P as ->. exact IH.
Qed.
Print Assumptions C68_children_back.

(** [children] from both ends in any order. *)
Definition is_dead (c : children_it) : Prop := ch_first c = None \/ ch_last c = None.
Lemma dead_drive T (ns : list (links T)) sched : forall c, is_dead c ->
  drive (total (children_next ns)) (total (children_next_back ns)) sched c = Ok (repeat None (length sched)).
Proof.
  induction sched as [|b sched IH]; intros [f z] H; auto. destruct b; simpl; unfold total, children_next, children_next_back; simpl.
  - destruct f as [f|]; simpl.
    + destruct H as [H|H]; [discriminate|]. simpl in H. subst z. destruct (nth_error ns f); rewrite IH; auto; left; auto.
    + rewrite IH; auto.
  - destruct z as [z|]; simpl.
    + destruct H as [H|H]; [|discriminate]. simpl in H. subst f. destruct (nth_error ns z); rewrite IH; auto; right; auto.
    + rewrite IH; auto.
Qed.
Lemma both_over T sched : both_ends (T := T) sched [] [] = repeat None (length sched).
Proof. induction sched; simpl; auto. f_equal. auto. Qed.
Lemma map_repeat {A B} (f : A -> B) x n : map f (repeat x n) = repeat (f x) n.
Proof. induction n; simpl; auto. f_equal. auto. Qed.
Lemma last_error_app {A} (l : list A) x : last_error (l ++ [x]) = Some x.
Proof. induction l as [|a [|b l] IH]; auto. Qed.

Theorem C68_both : forall T F (ops : list (op T)) l p s it m q s1 y s2 sched, vec_flavor F -> let t := tree_so_far F ops in
  reads t (tree_first t) l -> In (p, s) (sibling_lists l) -> its_children t p = Some it -> its_last t p = Some m ->
  In (q, s1 ++ y :: s2) (sibling_lists l) -> r_id y = fst m ->
  exists items, drive (total (children_next (t_nodes t))) (total (children_next_back (t_nodes t))) sched it = Ok items /\
    map (option_map view) items = map (option_map rview) (both_ends sched s (s1 ++ [y])).
Proof.
  intros T F ops l p s it m q s1 y s2 sched HF t Hl Hs Hit Hm Hq Hy. destruct (row_of T F ops l p s HF Hl Hs) as (o & A & Lf & ol & B & C & D). fold t in A, Lf, B, C, D. rewrite Hit in B. injection B as ->.
  rewrite (C m Hm), <- Hy. clear C D Hit Hy Hm m Lf Hs.
  pose proof (history_sees T F ops l HF Hl) as S0. fold t in S0.
  destruct (history_sim T F ops HF) as (_ & _ & [[(lo & hi & cap & stk & HB & _) _] _]). pose proof (bi_table _ _ _ _ _ HB) as HT. change (b_tree (w_builder (run_world F ops))) with t in HT. clear HB.
  assert (SV : forall i d sp f nx k kids, look (t_nodes t) i = Some (d, sp, f, nx) -> sees (look (t_nodes t)) f kids -> exists lk, nth_error (t_nodes t) i = Some lk /\ l_next lk = nx /\ view (i, lk) = rview (Nd i k d sp kids)).
  { intros i d sp f nx k kids H1 H2. destruct (sees_shows (t_nodes t) _ _ _ _ _ k _ H1 H2) as (lk & El & _ & En & Hsh). exists lk. split; auto. split; auto. destruct Hsh as [_ E]. exact E. }
  revert s o A s1 y s2 Hq. induction sched as [|b sched IH]; intros s o A s1 y s2 Hq; [exists []; auto|].
  inversion A as [|i d sp f nx k kids rest Ei H1 H2]; subst.
  { exists (repeat None (S (length sched))). split; [apply (dead_drive T (t_nodes t) (b :: sched)); left; auto|]. simpl. rewrite both_over, !map_repeat. auto. }
  destruct (SV _ _ _ _ _ k _ Ei H1) as (lk & El & En & Hv).
  destruct (sees_siblings _ _ _ S0 _ _ Hq) as (o' & So). apply sees_tail in So. destruct y as [j kj dj spj kidsj]. simpl in So. inversion So as [|j' d' sp' f' nx' k' kids' rest' Ej H3 H4]; subst.
  destruct (SV _ _ _ _ _ kj _ Ej H3) as (lj & Elj & _ & Hvj).
  cbn [both_ends]. rewrite last_error_app. cbn [r_id]. destruct (Nat.eqb_spec i j) as [->|Hne].
  - assert (lj = lk) by congruence. subst lj. destruct b.
    + exists (Some (j, lk) :: repeat None (length sched)). split.
      * cbn [drive]. unfold total at 1, children_next at 1. simpl. rewrite El, Nat.eqb_refl. rewrite dead_drive; [auto|left; auto].
      * cbn [map]. rewrite both_over, !map_repeat. simpl. rewrite Hv. auto.
    + exists (Some (j, lk) :: repeat None (length sched)). split.
      * cbn [drive]. unfold total at 1, children_next_back at 1. simpl. rewrite El, Nat.eqb_refl. rewrite dead_drive; [auto|right; auto].
      * cbn [map]. rewrite both_over, !map_repeat. simpl. rewrite Hv. auto.
  - destruct b.
    + destruct (IH rest (l_next lk) H2 s1 _ s2 Hq) as (items & E & V). exists (Some (i, lk) :: items). split.
      * cbn [drive]. unfold total at 1, children_next at 1. simpl. rewrite El. destruct (Nat.eqb_spec i j); [congruence|]. cbn [r_id] in E. rewrite E. auto.
      * cbn [map]. rewrite V. simpl. rewrite Hv. auto.
    + rewrite removelast_last.
      pose proof (C65_prev T F ops l HF Hl q s1 _ s2 (j, lj) Hq) as P. fold t in P. unfold tree_get, node_at in P. cbn [r_id] in P. rewrite Elj in P. specialize (P eq_refl). unfold node_prev in P. simpl in P.
      assert (P' : l_prev lj = option_map r_id (last_error s1)).
      { rewrite <- P. destruct (l_prev lj) as [z|] eqn:Ez; auto. destruct (li_prev _ _ _ _ _ _ (HT _ _ Elj) z Ez) as (_ & _ & _ & lz & E & _). simpl. unfold node_at. rewrite E. auto. }
      assert (DR : drive (total (children_next (t_nodes t))) (total (children_next_back (t_nodes t))) (false :: sched) (ChildrenIt (Some i) (Some j)) =
        match drive (total (children_next (t_nodes t))) (total (children_next_back (t_nodes t))) sched (ChildrenIt (Some i) (l_prev lj)) with Ok v => Ok (Some (j, lj) :: v) | Err e => Err e | Diverge => Diverge end).
      { cbn [drive]. unfold total at 1, children_next_back at 1. simpl. rewrite Elj. destruct (Nat.eqb_spec j i); [congruence|]. auto. }
      cbn [r_id]. rewrite DR, P'. destruct s1 as [|z s1 _] using rev_ind.
      * exists (Some (j, lj) :: repeat None (length sched)). simpl option_map. rewrite dead_drive by (right; auto). split; auto.
        assert (both_ends sched (Nd i k d sp kids :: rest) [] = repeat None (length sched)) as ->.
        { destruct sched; simpl; auto. rewrite both_over. auto. }
        cbn [map]. rewrite !map_repeat. simpl. rewrite Hvj. auto.
      * rewrite last_error_app. simpl option_map. rewrite <- app_assoc in Hq. simpl in Hq.
        destruct (IH _ (Some i) A s1 z _ Hq) as (items & E & V). rewrite E. exists (Some (j, lj) :: items). split; auto. cbn [map]. rewrite V. simpl. rewrite Hvj. auto.
Qed.
Print Assumptions C68_both.

(** ** Searches by range *)
Lemma step_grows T F (s : shape T) o : let '(s', r) := h_step F s o in
  length (h_parents s) <= length (h_parents s') /\ forall n, r = RNode n -> n < length (h_parents s').
Proof.
  assert (U : forall n (l : list (rose T)) ps, length (fold_right (fun y ps => upd ps (r_id y) (fun _ : option nat => Some n)) ps l) = length ps).
  { clear. induction l as [|y l IH]; intros ps; simpl; auto. rewrite length_upd. auto. }
  destruct o; simpl.
  1-2: unfold h_open_with; destruct (h_full F s); simpl; try rewrite app_length; simpl; (split; [lia|]); intros n H; inversion H; subst; lia.
  1: unfold h_close; destruct (h_open s); [|destruct (find _ _)]; simpl; (split; [lia|]); intros n' H; inversion H; subst; lia.
  1-2: unfold h_token; destruct (len_is_empty F _); [|destruct (ix_checked_add_len F _ _)]; try destruct (h_full F s); simpl; try rewrite app_length; simpl; (split; [lia|]); intros n' H; inversion H; subst; lia.
  1: unfold h_token_with; destruct (h_full F s); simpl; try rewrite app_length; simpl; (split; [lia|]); intros n H; inversion H; subst; lia.
  1: unfold h_checkpoint; destruct (h_full F s); [|cbv zeta; destruct (last_error (h_cells s)) as [[? ?]|]; [destruct (_ && _)|]]; simpl; (split; [lia|]); intros n' H; inversion H; subst; lia.
  1-2: unfold h_close_at; destruct (nth_error (h_handles s) k) as [a|]; [|simpl; split; [lia|]; intros n' H; discriminate]; destruct (nth_error (h_cells s) a) as [[id lv]|]; [|simpl; split; [lia|]; intros n' H; discriminate];
     destruct (negb _); [|destruct (h_full F s)]; [..|destruct (run_at id (h_forest s)) as [[x later]|]]; cbn [h_parents h_add]; rewrite ?app_length, ?U; simpl length; (split; [lia|]); intros n' H; inversion H; subst; lia.
  simpl. split; [lia|]. discriminate.
Qed.
Lemma run_index T F : forall (ops : list (op T)) s e, (forall q i, In (q, i) (e_index e) -> i < length (h_parents s)) ->
  forall q i, In (q, i) (e_index (e_run F s e ops)) -> i < length (h_parents (fst (h_run F s ops))).
Proof.
  induction ops as [|o ops IH]; intros s e H q i Hi; simpl in *; eauto.
  pose proof (step_grows T F s o) as G. destruct (h_step F s o) as [s' r] eqn:E. destruct G as [G1 G2].
  specialize (IH s' (e_step F s o s' r e)). destruct (h_run F s' ops) as [s2 rs]. simpl in *. apply (IH) in Hi; auto. clear Hi q i IH.
  intros q i Hi. unfold e_step in Hi. destruct r as [| n | | | |]; try (specialize (H q i Hi); lia).
  set (e1 := match run_of s o with Some (x, later) => e_wrap s x later n e | None => e_add s n e end) in *.
  assert (Hk : e_index e1 = e_index e) by (unfold e1; destruct (run_of s o) as [[? ?]|]; auto; unfold e_add; destruct (hd_error (h_open s)); auto).
  specialize (G2 n eq_refl).
  assert (K : In (q, i) (e_index e1) \/ i = n).
  { revert Hi. unfold e_note. destruct (fl_indexes F), o; auto; try destruct (len_is_empty F len); auto; simpl; intros Hi; apply in_app_or in Hi as [Hi|[Hi|[]]]; auto; injection Hi as _ <-; auto. }
  destruct K as [K| ->]; [|lia]. rewrite Hk in K. specialize (H q i K). lia.
Qed.

Lemma climb_reaching T (ns : list (links T)) e : forall items n fuel o, climb fuel ns e n = Ok o ->
  enumerates (total (ancestors_next ns)) (node_ancestors n) (n :: items) -> o = reaching e n items.
Proof.
  unfold reaching. induction items as [|m items IH]; intros n [|fuel] o H E; simpl in H; try discriminate;
    apply enumerates_cons in E as (st & E1 & E2); unfold total, node_ancestors, ancestors_next in E1; injection E1 as <-.
  - destruct (node_parent ns n) as [p|] eqn:Ep.
    + exfalso. apply enumerates_nil in E2 as (s2 & E2 & _). discriminate.
    + simpl. congruence.
  - destruct (node_parent ns n) as [p|] eqn:Ep.
    + pose proof E2 as E3. apply enumerates_cons in E3 as (s2 & E3 & _). unfold total, ancestors_next in E3. injection E3 as _ ->.
      simpl find. destruct (N.leb e (s_end (node_span m))) eqn:El; [congruence|].
      specialize (IH m fuel o H E2). rewrite IH. destruct (find _ items); auto. symmetry. apply last_shift.
    + apply enumerates_cons in E2 as (s2 & E2 & _). discriminate.
Qed.

(** A search by range goes to a token by position, and from there up to the first ancestor that ends at or after
    the end of the range. *)
Theorem C68_range : forall T F (ops : list (op T)) bs s e, vec_flavor F -> let t := tree_so_far F ops in let ix := e_index (ends_after F ops) in
  ix_from_usize F s = Some s -> ix_from_usize F e = Some e ->
  match nth_error ix (match bs ix s with inl k => S k | inr k => k end) with
  | None => node_with_range F bs t s e = Ok None
  | Some (_, i) => exists n above, tree_get t i = Some n /\
      enumerates (total (ancestors_next (t_nodes t))) (node_ancestors n) (n :: above) /\
      node_with_range F bs t s e = Ok (Some (reaching e n above))
  end.
Proof.
  intros T F ops bs s e HF t ix Hs He.
  assert (Ex : t_indexes t = ix) by (unfold ix; rewrite <- (history_ends T F ops HF); auto).
  destruct (history_sim T F ops HF) as (_ & HS & Hw). pose proof (sm_core _ _ HS) as HC. unfold shape_of in HC. set (h := fst (h_run F shape_new ops)) in *.
  destruct (C65_history T F ops HF) as (_ & Hl & _). 
  pose proof (run_index T F ops shape_new ends_new ltac:(intros q i [])) as RI. fold (ends_after F ops) h in RI. change (forall q i, In (q, i) ix -> i < length (h_parents h)) in RI.
  unfold node_with_range. rewrite Hs, He. unfold node_with_span_internal. rewrite Ex.
  destruct (nth_error ix _) as [[q i]|] eqn:En; auto.
  apply nth_error_In in En. specialize (RI q i En). pose proof (cs_len _ _ HC) as Hlen. change (b_tree (w_builder (run_world F ops))) with t in Hlen. rewrite Hlen in RI.
  destruct (nth_in (t_nodes t) i RI) as [li Eli]. 
  assert (Hn : tree_get t i = Some (i, li)) by (unfold tree_get, node_at; rewrite Eli; auto). exists (i, li).
  destruct (C38_searches_end T F ops t i (i, li) HF eq_refl Hn) as [_ CE]. specialize (CE bs s e). unfold node_with_range, node_with_span_internal in CE. rewrite Hs, He, Ex in CE. destruct CE as [o CE].
  destruct (C65_history T F ops HF) as (_ & Hr & _). change (reads t (tree_first t) (h_forest h)) in Hr. cbv zeta in Hr.
  destruct (placed_reads _ _ Hw) as (_ & _ & Hp). change (b_tree (w_builder (run_world F ops))) with t in Hp. specialize (Hp _ Hr).
  assert (Hi : In i (map r_id (preorder_list (h_forest h)))) by (apply (Permutation_in i (Permutation_sym Hp)), in_seq; unfold tree_len in RI |- *; lia).
  apply in_map_iff in Hi as (x & Exi & Hx). destruct (ancestry_exists (h_forest h) x Hx) as [ch Hch]. destruct (chain_head T _ _ _ Hch) as [ch' ->].
  destruct (C67_ancestors T F ops (h_forest h) x ch' (i, li) HF Hr Hch) as (items & A & _); [rewrite Exi; exact Hn|]. fold t in A.
  exists items. split; auto. split; auto. rewrite Hn.
  pose proof (fun o => climb_reaching T (t_nodes t) e items (i, li) (S (tree_len t)) o) as CR.
  pose proof Hw as [[(lo & hi & cap & stk & HB & _) _] _]. pose proof (bi_table _ _ _ _ _ HB) as HT. change (b_tree (w_builder (run_world F ops))) with t in HT.
  destruct (climb_ends _ _ _ _ HT e (S (tree_len t)) i li Eli) as (r & Er & _).
  { pose proof (ups_n (t_nodes t) lo i). unfold tree_len. lia. }
  rewrite Er in CR |- *. rewrite (CR r eq_refl A). auto.
Qed.
Print Assumptions C68_range.

(** ** The answers determine the tree *)
Theorem C68_same : forall T F F' (ops ops' : list (op T)) l, vec_flavor F -> vec_flavor F' ->
  let t := tree_so_far F ops in let t' := tree_so_far F' ops' in
  reads t (tree_first t) l -> reads t' (tree_first t') l ->
  (forall i, named t i = named t' i) -> (forall i, last_named t i = last_named t' i) ->
  t_span t = t_span t' -> option_map fst (tree_last t) = option_map fst (tree_last t') -> 
  e_index (ends_after F ops) = e_index (ends_after F' ops') ->
  t = t'.
Proof.
  intros T F F' ops ops' l HF HF' t t' Hr Hr' Hn Hl Hsp Htl Hix.
  pose proof (history_sees T F ops l HF Hr) as S. pose proof (history_sees T F' ops' l HF' Hr') as S'. fold t in S. fold t' in S'.
  pose proof (size_len T F ops l HF Hr) as L. pose proof (size_len T F' ops' l HF' Hr') as L'. fold t in L. fold t' in L'.
  assert (G : forall o m, sees (look (t_nodes t)) o m -> forall o', sees (look (t_nodes t')) o' m -> o' = o /\ forall i, In i (ids m) -> look (t_nodes t') i = look (t_nodes t) i).
  { clear. induction 1 as [|i d sp f nx k kids rest E H1 IH1 H2 IH2]; intros o' H'; inversion H' as [|i1 d1 sp1 f1 nx1 k1 kids1 rest1 E1 H3 H4]; subst.
    - split; auto. intros i [].
    - destruct (IH1 _ H3) as [-> G1]. destruct (IH2 _ H4) as [-> G2]. split; auto. intros j Hj. rewrite ids_cons in Hj. destruct Hj as [<-|Hj]; [congruence|]. apply in_app_or in Hj as [Hj|Hj]; auto. }
  destruct (G _ _ S _ S') as [Gf Gl].
  destruct (history_sim T F ops HF) as (_ & _ & Hw). destruct (history_sim T F' ops' HF') as (_ & _ & Hw').
  destruct (placed_reads _ _ Hw) as (_ & _ & Hp). change (b_tree (w_builder (run_world F ops))) with t in Hp. specialize (Hp _ Hr).
  pose proof Hw as [[(lo & hi & cap & stk & HB & _) _] _]. pose proof Hw' as [[(lo' & hi' & cap' & stk' & HB' & _) _] _].
  pose proof (bi_table _ _ _ _ _ HB) as HT. pose proof (bi_table _ _ _ _ _ HB') as HT'. change (b_tree (w_builder (run_world F ops))) with t in HT. change (b_tree (w_builder (run_world F' ops'))) with t' in HT'.
  assert (NO : forall ns (o : option nat), (forall y, o = Some y -> y < length ns) -> option_map fst (node_opt (T := T) ns o) = o).
  { intros ns [y|] H; auto. destruct (nth_in ns y (H y eq_refl)) as [ly E]. simpl. unfold node_at. rewrite E. auto. }
  assert (Hlast : t_last t = t_last t').
  { unfold tree_last in Htl. rewrite !NO in Htl; auto; [apply (bi_last _ _ _ _ _ HB')|apply (bi_last _ _ _ _ _ HB)]. }
  assert (Hixs : t_indexes t = t_indexes t').
  { rewrite <- (history_ends T F ops HF), <- (history_ends T F' ops' HF') in Hix. exact Hix. }
  assert (Hnodes : t_nodes t = t_nodes t').
  { apply nth_ext_opt; [unfold tree_len in L, L'; congruence|]. intros i _. destruct (nth_error (t_nodes t) i) as [li|] eqn:Ei.
    - assert (Hi : In i (ids l)) by (apply (Permutation_in i (Permutation_sym Hp)), in_seq; apply nth_lt in Ei; unfold tree_len; lia).
      pose proof (Gl i Hi) as Gi. unfold look in Gi. rewrite Ei in Gi. destruct (nth_error (t_nodes t') i) as [li'|] eqn:Ei'; [|discriminate]. simpl in Gi. injection Gi as G1 G2 G3 G4.
      f_equal. 
      assert (G5 : l_parent li = l_parent li').
      { specialize (Hn i). pose proof (named_par T F ops i HF) as N1. pose proof (named_par T F' ops' i HF') as N2. cbv zeta in N1, N2. fold t in N1. fold t' in N2. rewrite N1, N2 in Hn. unfold par in Hn. rewrite Ei, Ei' in Hn. exact Hn. }
      assert (G6 : l_last li = l_last li').
      { specialize (Hl i). unfold last_named, tree_get, node_at in Hl. rewrite Ei, Ei' in Hl. unfold node_last in Hl. simpl in Hl. rewrite !NO in Hl; auto.
        - intros y Hy. destruct (li_last _ _ _ _ _ _ (HT' _ _ Ei') y Hy). auto.
        - intros y Hy. destruct (li_last _ _ _ _ _ _ (HT _ _ Ei) y Hy). auto. }
      assert (G7 : l_prev li = l_prev li').
      { apply in_map_iff in Hi as (x & Ex & Hx). destruct (in_sibling_lists _ _ Hx) as (p & s1 & s2 & Hs).
        pose proof (C65_prev T F ops l HF Hr p s1 x s2 (i, li) Hs) as P. pose proof (C65_prev T F' ops' l HF' Hr' p s1 x s2 (i, li') Hs) as P'. fold t in P. fold t' in P'.
        unfold tree_get, node_at in P, P'. rewrite Ex, Ei in P. rewrite Ex, Ei' in P'. specialize (P eq_refl). specialize (P' eq_refl). rewrite <- P' in P. unfold node_prev in P. simpl in P. rewrite !NO in P; auto.
        - intros y Hy. destruct (li_prev _ _ _ _ _ _ (HT' _ _ Ei') y Hy) as (_ & _ & _ & ly & E & _). apply nth_lt in E. auto.
        - intros y Hy. destruct (li_prev _ _ _ _ _ _ (HT _ _ Ei) y Hy) as (_ & _ & _ & ly & E & _). apply nth_lt in E. auto. }
      destruct li, li'; simpl in *; congruence.
    - destruct (nth_error (t_nodes t') i) as [li'|] eqn:Ei'; auto. apply nth_lt in Ei'. apply nth_error_None in Ei. unfold tree_len in *. lia. }
  destruct t as [a1 a2 a3 a4 a5], t' as [b1 b2 b3 b4 b5]. simpl in *. congruence.
Qed.
Print Assumptions C68_same.

(** ** A history with misused checkpoints *)

(** The document of six nodes is 2[0 4[1] 5] 3.  Node 2 has the children 0, 4 and 5 and its last one is 4: 5 is
    left out from both ends.  The last root is said to be 5, which is no root: from the front the roots are 2 and 3, from the
    back they are 5, 4 and 0. *)
Example C68_inhabited : let t := tree_so_far flavor_default missed_ops in
  vec_flavor flavor_default /\ reads t (tree_first t) missed_doc /\
  ends_after flavor_default missed_ops = Ends [None; None; Some 4; None; Some 1; None] (Some 5) [(1%N, 0); (2%N, 1); (3%N, 3); (4%N, 5)] /\
  (exists x0 x4 x5 x2 x3, missed_doc = [x2; x3] /\ map r_id missed_doc = [2; 3] /\ r_kids x2 = [x0; x4; x5] /\
    In (Some x2, [x0] ++ x4 :: [x5]) (sibling_lists missed_doc) /\ In (None, missed_doc) (sibling_lists missed_doc) /\
    (* the hypotheses of [C68_children] and [C68_children_back], and the answers *)
    option_map fst (its_last t (Some x2)) = Some 4 /\ r_id x4 = 4 /\ upto 4 (r_kids x2) = [x0; x4] /\
    option_map fst (its_last t None) = Some 5 /\ upto 5 missed_doc = [x2; x3] /\ In (Some x2, [x0; x4] ++ x5 :: []) (sibling_lists missed_doc) /\ r_id x5 = 5) /\
  (* searches: the token after the position, then up as far as needed *)
  option_map (fun r => match r with Some n => Some (fst n) | None => None end)
    (match node_with_range flavor_default std_search t 1 2 with Ok r => Some r | _ => None end) = Some (Some 4) /\
  option_map (fun r => match r with Some n => Some (fst n) | None => None end)
    (match node_with_range flavor_default std_search t 1 3 with Ok r => Some r | _ => None end) = Some (Some 2).
Proof.
  intros t. split; [split; auto|]. split; [apply (read_reads _ 10); vm_compute; reflexivity|]. split; [vm_compute; reflexivity|]. split.
  - exists (Nd 0 KLeaf 2 (Span 0 1) []), (Nd 4 KLeaf 11 (Span 1 2) [Nd 1 KLeaf 3 (Span 1 2) []]), (Nd 5 KLeaf 5 (Span 3 4) []),
      (Nd 2 KLeaf 10 (Span 0 2) [Nd 0 KLeaf 2 (Span 0 1) []; Nd 4 KLeaf 11 (Span 1 2) [Nd 1 KLeaf 3 (Span 1 2) []]; Nd 5 KLeaf 5 (Span 3 4) []]), (Nd 3 KLeaf 4 (Span 2 3) []).
    split; [reflexivity|]. split; [reflexivity|]. split; [reflexivity|]. split; [simpl; auto|]. split; [simpl; auto|].
    split; [vm_compute; reflexivity|]. split; [reflexivity|]. split; [reflexivity|]. split; [vm_compute; reflexivity|]. split; [reflexivity|]. split; [simpl; auto|reflexivity].
  - split; vm_compute; reflexivity.
Qed.
Example C68_both_inhabited : exists x0 x4 x5 x2, In (Some x2, [x0; x4] ++ x5 :: []) (sibling_lists missed_doc) /\ r_id x5 = 5 /\ map r_id (r_kids x2) = [0; 4; 5] /\
  map (option_map r_id) (both_ends [true; false; true; false] missed_doc [x0; x4; x5]) = [Some 2; Some 5; Some 3; None] /\
  map (option_map r_id) (both_ends [false; true; false] (r_kids x2) [x0; x4]) = [Some 4; Some 0; None].
Proof.
  exists (Nd 0 KLeaf 2 (Span 0 1) []), (Nd 4 KLeaf 11 (Span 1 2) [Nd 1 KLeaf 3 (Span 1 2) []]), (Nd 5 KLeaf 5 (Span 3 4) []),
    (Nd 2 KLeaf 10 (Span 0 2) [Nd 0 KLeaf 2 (Span 0 1) []; Nd 4 KLeaf 11 (Span 1 2) [Nd 1 KLeaf 3 (Span 1 2) []]; Nd 5 KLeaf 5 (Span 3 4) []]).
  split; [simpl; auto|]. repeat split; vm_compute; reflexivity.
Qed.
(** Two different histories meet the hypotheses of [C68_same]. *)
Example C68_same_inhabited : let t := tree_so_far flavor_default missed_ops in let t' := tree_so_far flavor_default (OSetCursor 7 :: OClose :: OSetCursor 0 :: missed_ops) in
  reads t (tree_first t) missed_doc /\ reads t' (tree_first t') missed_doc /\
  (forall i, named t i = named t' i) /\ (forall i, last_named t i = last_named t' i) /\ t_span t = t_span t' /\
  option_map fst (tree_last t) = option_map fst (tree_last t').
Proof.
  intros t t'. split; [apply (read_reads _ 10); vm_compute; reflexivity|]. split; [apply (read_reads _ 10); vm_compute; reflexivity|].
  assert (A : forall j, 6 <= j -> nth_error (t_nodes t) j = None) by (intros j Hj; apply nth_error_None; exact Hj).
  assert (A' : forall j, 6 <= j -> nth_error (t_nodes t') j = None) by (intros j Hj; apply nth_error_None; exact Hj).
  split; [|split; [|split; vm_compute; reflexivity]]; intros i; (destruct (Nat.lt_ge_cases i 6) as [Hi|Hi];
    [do 6 (destruct i as [|i]; [vm_compute; reflexivity|]); lia|unfold named, last_named, tree_get, node_at; rewrite (A i Hi), (A' i Hi); auto]).
Qed.
