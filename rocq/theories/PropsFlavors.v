(** Property theorems: flavors differ in their limits only (C59). *)
From Coq Require Import Lia.
From Verif Require Import Base Pointer Index Tree Builder Hist Node Iter Query Edit Spec SpecEvents SpecFlavors SpecEdit Rep Marks Refine TreeRep
  Enum Walk WalkTree WalkGen WalkThms PropsTree PropsEvents PropsModified PropsSafe PropsWith Demo Render PropsText.

Section Two.
Variables F G : flavor.
Hypothesis HC : comparable F G.
(** Either nothing is known of the limits of [G] ([Q]), or it has more room. *)
Variable Q : Prop.
Hypothesis HQ : Q \/ roomier F G.
Context {T : Type}.
Implicit Types b : builder T.

Lemma pn n : pointer_new F n = pointer_new G n \/ pointer_new F n = None \/ (pointer_new G n = None /\ Q).
Proof.
  rewrite !pointer_new_spec. destruct (N.leb_spec (int_max F (fl_width F)) (N.of_nat n)), (N.leb_spec (int_max G (fl_width G)) (N.of_nat n)); auto.
  destruct HQ as [q|[q _]]; auto. lia.
Qed.
Lemma add_len c n : ix_checked_add_len F c n = ix_checked_add_len G c n \/ ix_checked_add_len F c n = None \/ (ix_checked_add_len G c n = None /\ Q).
Proof.
  destruct HC as (H1 & H2 & _). assert (q : Q \/ (ix_max F <= ix_max G)%N) by (destruct HQ as [q|[_ q]]; auto). clear HQ HC.
  unfold ix_checked_add_len, ix_max in *.
  destruct (fl_index F), (fl_index G); try congruence;
    repeat match goal with |- context [if N.leb ?a ?b then _ else _] => destruct (N.leb_spec a b) end; auto; destruct q; auto; lia.
Qed.
Lemma lie n : len_is_empty F n = len_is_empty G n.
Proof. destruct HC as (H1 & H2 & _). unfold len_is_empty. destruct (fl_index F), (fl_index G); congruence. Qed.
Lemma push_same l (t : tree T) : tree_push F l t = tree_push G l t.
Proof. unfold tree_push. destruct HC as (_ & _ & -> & _). auto. Qed.
Lemma push_index_same i id (t : tree T) : tree_push_index F i id t = tree_push_index G i id t.
Proof. unfold tree_push_index. destruct HC as (_ & _ & _ & ->). auto. Qed.

Definition same_or {A B} (f g : A * result B) : Prop := f = g \/ snd f = Err Overflow \/ (snd g = Err Overflow /\ Q).

Lemma insert_same d sp b : same_or (insert F d sp b) (insert G d sp b).
Proof.
  unfold insert, same_or. destruct (pn (tree_len (b_tree b))) as [E|[E|[E q]]]; [|rewrite E; auto|rewrite E; auto].
  rewrite E. destruct (pointer_new G _); auto. rewrite push_same. auto.
Qed.
Lemma open_with_same d sp b : same_or (open_with F d sp b) (open_with G d sp b).
Proof.
  unfold open_with. destruct (insert_same d sp b) as [E|[E|[E q]]].
  - left. rewrite E. auto.
  - right; left. destruct (insert F d sp b) as [b' r]. simpl in E. subst. auto.
  - right; right. destruct (insert G d sp b) as [b' r]. simpl in E. subst. auto.
Qed.
Lemma token_same d len b : same_or (token F d len b) (token G d len b).
Proof.
  unfold token. rewrite lie. 
  assert (GO : forall b', same_or
    (match insert F d (Span (b_cursor b) (b_cursor b')) b' with
    | (b, Ok id) => let b := set_b_sibling (Some id) b in
      if len_is_empty G len then (b, Ok id) else match tree_push_index F (b_cursor b) id (b_tree b) with None => (b, Err FlavorError) | Some t => (set_b_tree t b, Ok id) end
    | r => r end)
    (match insert G d (Span (b_cursor b) (b_cursor b')) b' with
    | (b, Ok id) => let b := set_b_sibling (Some id) b in
      if len_is_empty G len then (b, Ok id) else match tree_push_index G (b_cursor b) id (b_tree b) with None => (b, Err FlavorError) | Some t => (set_b_tree t b, Ok id) end
    | r => r end)).
  { intros b'. destruct (insert_same d (Span (b_cursor b) (b_cursor b')) b') as [E|[E|[E q]]].
    - left. rewrite E. destruct (insert G _ _ b') as [b1 [id|e|]]; auto. cbv zeta. rewrite push_index_same. auto.
    - right; left. destruct (insert F _ _ b') as [b1 r]. simpl in E. subst. auto.
    - right; right. destruct (insert G _ _ b') as [b1 r]. simpl in E. subst. auto. }
  destruct (len_is_empty G len) eqn:El; [apply GO|].
  destruct (add_len (b_cursor b) len) as [E|[E|[E q]]]; [|rewrite E; right; left; auto|rewrite E; right; right; auto].
  rewrite E. destruct (ix_checked_add_len G (b_cursor b) len) as [c|]; [apply GO|left; auto].
Qed.
Lemma token_with_same d sp b : same_or (token_with F d sp b) (token_with G d sp b).
Proof.
  unfold token_with. destruct (insert_same d sp b) as [E|[E|[E q]]].
  - left. rewrite E. destruct (insert G d sp b) as [b1 [id|e|]]; auto. cbv zeta. rewrite push_index_same. auto.
  - right; left. destruct (insert F d sp b) as [b' r]. simpl in E. subst. auto.
  - right; right. destruct (insert G d sp b) as [b' r]. simpl in E. subst. auto.
Qed.
Lemma checkpoint_same h b : same_or (checkpoint F h b) (checkpoint G h b).
Proof.
  unfold checkpoint, same_or. destruct (pn (tree_len (b_tree b))) as [E|[E|[E q]]]; [|rewrite E; auto|rewrite E; auto]. rewrite E. auto.
Qed.
Lemma close_at_same a d o h b : same_or (close_at_gen F a d o h b) (close_at_gen G a d o h b).
Proof.
  unfold close_at_gen, same_or. destruct (nth_error h a) as [c|]; auto. destruct (negb _); auto.
  destruct (pn (tree_len (b_tree b))) as [E|[E|[E q]]]; [|rewrite E; auto|rewrite E; auto]. rewrite E.
  destruct (pointer_new G (tree_len (b_tree b))) as [new|]; auto. destruct (nth_error (t_nodes (b_tree b)) (c_node c)) as [l|].
  - set (q := let '(nodes, r) := _ in _). left. set (q' := let '(nodes, r) := _ in _). subst q q'.
    destruct (match l_next l with Some next => _ | None => _ end) as [nodes [[last e]|e|]]; auto. rewrite push_same. auto.
  - destruct (insert_same d (match o with Some sp => sp | None => span_point (b_cursor b) end) b) as [E2|[E2|[E2 q]]].
    + rewrite E2. auto.
    + destruct (insert F d _ b) as [b' r]. simpl in E2. subst. auto.
    + destruct (insert G d _ b) as [b' r]. simpl in E2. subst. auto.
Qed.

Lemma step_same (w : world T) o : step F w o = step G w o \/ snd (step F w o) = RErr Overflow \/ (snd (step G w o) = RErr Overflow /\ Q).
Proof.
  assert (K : forall (f g : builder T * result nat) h env, same_or f g ->
    (let '(b, r) := f in (World h b env, out_node r)) = (let '(b, r) := g in (World h b env, out_node r)) \/
    snd (let '(b, r) := f in (World h b env, out_node r)) = RErr Overflow \/ (snd (let '(b, r) := g in (World h b env, out_node r)) = RErr Overflow /\ Q)).
  { intros [b1 r1] [b2 r2] h env [E|[E|[E q]]]; simpl in E; [injection E as -> ->|subst|subst]; simpl; auto. }
  assert (K2 : forall (f g : heap * builder T * result nat) env, same_or f g ->
    (let '(h, b, r) := f in (World h b env, out_node r)) = (let '(h, b, r) := g in (World h b env, out_node r)) \/
    snd (let '(h, b, r) := f in (World h b env, out_node r)) = RErr Overflow \/ (snd (let '(h, b, r) := g in (World h b env, out_node r)) = RErr Overflow /\ Q)).
  { intros [[h1 b1] r1] [[h2 b2] r2] env [E|[E|[E q]]]; simpl in E; [injection E as -> -> ->|subst|subst]; simpl; auto. }
  destruct o; simpl; auto.
  - apply K. apply open_with_same.
  - apply K. apply open_with_same.
  - apply K. apply token_same.
  - apply K. apply token_same.
  - apply K. apply token_with_same.
  - destruct (checkpoint_same (w_heap w) (w_builder w)) as [E|[E|[E q]]].
    + rewrite E. auto.
    + destruct (checkpoint F _ _) as [[h b] r]. simpl in E. subst. auto.
    + destruct (checkpoint G _ _) as [[h b] r]. simpl in E. subst. auto.
  - destruct (nth_error (w_env w) k); auto. apply K2. apply close_at_same.
  - destruct (nth_error (w_env w) k); auto. apply K2. apply close_at_same.
Qed.

Lemma run_same : forall (ops : list (op T)) w, no_overflow (snd (run F w ops)) -> (Q -> no_overflow (snd (run G w ops))) -> run F w ops = run G w ops.
Proof.
  induction ops as [|o ops IH]; intros w H1 H2; auto. simpl in *.
  destruct (step_same w o) as [E|[E|[E q]]].
  - rewrite <- E in *. destruct (step F w o) as [w1 r]. specialize (IH w1). destruct (run F w1 ops) as [w2 rs], (run G w1 ops) as [w2' rs']. simpl in *.
    assert (E2 : (w2, rs) = (w2', rs')) by (apply IH; [intros Hx; apply H1|intros q Hx; apply (H2 q)]; right; auto). injection E2 as -> ->. auto.
  - destruct (step F w o) as [w1 r]. simpl in E. subst. destruct (run F w1 ops). exfalso. apply H1. left; auto.
  - destruct (step G w o) as [w1 r]. simpl in E. subst. destruct (run G w1 ops). exfalso. apply (H2 q). left; auto.
Qed.

(** The document described. *)
Lemma full_same (a : doc T) : full F a = full G a \/ full F a = true \/ (full G a = true /\ Q).
Proof.
  unfold full. destruct (N.leb_spec (int_max F (fl_width F)) (N.of_nat (a_n a))), (N.leb_spec (int_max G (fl_width G)) (N.of_nat (a_n a))); auto.
  destruct HQ as [q|[q _]]; auto. lia.
Qed.
Definition doc_or (f g : option (doc T * out)) : Prop :=
  f = g \/ (exists a, f = Some (a, RErr Overflow)) \/ ((exists a, g = Some (a, RErr Overflow)) /\ Q).
Lemma pi_same i id (a : doc T) : Spec.push_index F i id a = Spec.push_index G i id a.
Proof. unfold Spec.push_index. destruct HC as (_ & _ & _ & ->). auto. Qed.
Lemma a_token_same d len (a : doc T) : doc_or (Some (a_token F d len a)) (Some (a_token G d len a)).
Proof.
  unfold a_token, doc_or. rewrite lie. destruct (len_is_empty G len).
  - destruct (full_same a) as [E|[E|[E q]]]; rewrite E; eauto.
  - destruct (add_len (a_cursor a) len) as [E|[E|[E q]]]; rewrite E; eauto.
    destruct (ix_checked_add_len G (a_cursor a) len) as [c|]; eauto. cbv zeta. rewrite pi_same.
    destruct (full_same a) as [E2|[E2|[E2 q]]]; rewrite E2; eauto.
Qed.
Lemma a_close_at_same k d o (a : doc T) : doc_or (a_close_at F k d o a) (a_close_at G k d o a).
Proof.
  unfold a_close_at, doc_or. destruct (nth_error (a_marks a) k) as [m|]; auto. destruct (negb _); auto.
  destruct (full_same a) as [E|[E|[E q]]]; rewrite E; eauto.
Qed.
Lemma a_step_same (a : doc T) o : doc_or (a_step F a o) (a_step G a o).
Proof.
  destruct o; simpl; auto using a_token_same, a_close_at_same.
  - unfold doc_or, a_open_with. destruct (full_same a) as [E|[E|[E q]]]; rewrite E; eauto.
  - unfold doc_or, a_open_with. destruct (full_same a) as [E|[E|[E q]]]; rewrite E; eauto.
  - left; auto.
  - unfold doc_or, a_token_with. rewrite pi_same. destruct (full_same a) as [E|[E|[E q]]]; rewrite E; eauto.
  - unfold doc_or, a_checkpoint. destruct (full_same a) as [E|[E|[E q]]]; rewrite E; eauto.
  - left; auto.
Qed.
Lemma a_run_same (HF : vec_flavor F) (HG : vec_flavor G) : forall (ops : list (op T)) w a a' rs, R w a -> a_run F a ops = Some (a', rs) -> no_overflow rs ->
  (Q -> no_overflow (snd (run G w ops))) -> a_run G a ops = Some (a', rs).
Proof.
  induction ops as [|o ops IH]; intros w a a' rs HR E H1 H2; auto. simpl in E |- *.
  destruct (a_step F a o) as [[a1 r]|] eqn:E1; [|discriminate]. destruct (a_run F a1 ops) as [[a2 rs']|] eqn:E2; [|discriminate]. injection E as <- <-.
  assert (Eg : a_step G a o = Some (a1, r)).
  { destruct (a_step_same a o) as [D|[[x D]|[[x D] q]]].
    - congruence.
    - exfalso. apply H1. left. congruence.
    - exfalso. destruct (step_refines G HG w a o x (RErr Overflow) HR D) as (w' & Es & _). apply (H2 q). simpl. rewrite Es. destruct (run G w' ops). left; auto. }
  rewrite Eg. destruct (step_refines G HG w a o a1 r HR Eg) as (w' & Es & HR').
  rewrite (IH w' a1 a2 rs'); auto.
  - intros Hx. apply H1. right; auto.
  - intros q Hx. apply (H2 q). simpl. rewrite Es. destruct (run G w' ops). right; auto.
Qed.
End Two.

(** ** The builder *)

(** The same calls in two flavors, neither of which reached a limit: the same results, the same builder, the same checkpoints. *)
Theorem C59_run : forall T F G (ops : list (op T)), comparable F G -> no_overflow (run_outs F ops) -> no_overflow (run_outs G ops) ->
  run F world_new ops = run G world_new ops.
Proof. intros T F G ops HC H1 H2. apply (run_same F G HC True (or_introl I) ops world_new); auto. Qed.
Print Assumptions C59_run.

(** In a flavor with more room nothing changes. *)
Theorem C59_more_room : forall T F G (ops : list (op T)), comparable F G -> roomier F G -> no_overflow (run_outs F ops) ->
  run F world_new ops = run G world_new ops.
Proof. intros T F G ops HC HR H. apply (run_same F G HC False (or_intror HR) ops world_new); auto. intros []. Qed.
Print Assumptions C59_more_room.

Lemma run_app T F : forall (a : list (op T)) w c, run F w (a ++ c) = (let '(w1, r1) := run F w a in let '(w2, r2) := run F w1 c in (w2, r1 ++ r2)).
Proof.
  induction a as [|o a IH]; intros w c; simpl; [destruct (run F w c); auto|].
  destruct (step F w o) as [w1 r]. rewrite IH. destruct (run F w1 a) as [w2 r2]. destruct (run F w2 c). auto.
Qed.
Lemma outs_firstn T F : forall (ops : list (op T)) w k, firstn k (snd (run F w ops)) = snd (run F w (firstn k ops)).
Proof.
  induction ops as [|o ops IH]; intros w [|k]; simpl; auto.
  specialize (IH (fst (step F w o)) k). destruct (step F w o) as [w1 r]. simpl in IH.
  destruct (run F w1 ops), (run F w1 (firstn k ops)). simpl in *. congruence.
Qed.

(** In any case the first difference between the results of two flavors is that one of them reached a limit. *)
Theorem C59_first_difference : forall T F G (ops : list (op T)) k, comparable F G ->
  nth_error (run_outs F ops) k <> nth_error (run_outs G ops) k ->
  In (RErr Overflow) (firstn (S k) (run_outs F ops)) \/ In (RErr Overflow) (firstn (S k) (run_outs G ops)).
Proof.
  intros T F G ops k HC Hd.
  assert (D : forall rs : list out, In (RErr Overflow) rs \/ no_overflow rs).
  { intros rs. unfold no_overflow. induction rs as [|r rs [IH|IH]]; [right; intros []|left; right; auto|].
    assert (E : r = RErr Overflow \/ r <> RErr Overflow) by (destruct r as [|? | |[]| |]; auto; right; discriminate).
    destruct E as [->|E]; [left; left; auto|right]. intros [->|H]; auto. }
  destruct (D (firstn (S k) (run_outs F ops))) as [H|H1]; auto. destruct (D (firstn (S k) (run_outs G ops))) as [H|H2]; auto.
  exfalso. unfold run_outs in *. rewrite outs_firstn in H1, H2.
  assert (E : run F world_new (firstn (S k) ops) = run G world_new (firstn (S k) ops)) by (apply C59_run; auto).
  apply Hd. assert (N : forall (rs : list out), nth_error rs k = nth_error (firstn (S k) rs) k).
  { clear. induction k as [|k IH]; intros [|r rs]; auto. simpl. rewrite IH. auto. }
  rewrite (N (snd (run F _ ops))), (N (snd (run G _ ops))), !outs_firstn, E. auto.
Qed.
Print Assumptions C59_first_difference.

Lemma comparable_vec F G : comparable F G -> vec_flavor F -> vec_flavor G.
Proof. intros (_ & _ & E1 & E2) [H1 H2]. split; [congruence|]. rewrite <- E2. auto. Qed.

(** ** The tree and its traversals *)

(** build() gives the same tree, of the same document.  [fits G t]: the target of [G] can hold it. *)
Theorem C59_finished : forall T F G (ops : list (op T)) t l, comparable F G -> no_overflow (run_outs F ops) -> no_overflow (run_outs G ops) ->
  finished F ops t l -> fits G t -> finished G ops t l.
Proof.
  intros T F G ops t l HC H1 H2 (HF & (a & rs & Hd & Ho & Hl) & Hb & _) Hfit.
  pose proof (comparable_vec F G HC HF) as HG. pose proof (C59_run T F G ops HC H1 H2) as E.
  split; [auto|]. split; [|split; [|auto]].
  - exists a, rs. split; [|auto]. destruct (refines F HF ops a rs Hd) as (w & Er & _).
    apply (a_run_same F G HC True (or_introl I) HF HG ops world_new doc_new a rs R_new Hd); auto.
    unfold run_outs in H1. rewrite Er in H1. auto.
  - unfold builds, run_world in *. rewrite <- E. auto.
Qed.
Print Assumptions C59_finished.

Section Walks.
Context {T : Type}.
Variables F G : flavor.
Variable t : tree T.
Variable l : list (rose T).
Hypothesis HF : good F t l.
Hypothesis HG : good G t l.

Lemma enum_rel_both {S A B} (f g : S -> result (S * option A)) (Rl : A -> B -> Prop) s xs : (forall a b x, Rl a x -> Rl b x -> a = b) ->
  enum_rel f Rl s xs -> enum_rel g Rl s xs -> same_items f g s s.
Proof.
  intros U (i1 & E1 & H1) (i2 & E2 & H2). exists i1. split; auto. replace i1 with i2; auto.
  clear E1 E2. revert i2 H2. induction H1 as [|a x i1 xs Ha H1 IH]; intros i2 H2; inversion H2; subst; auto. f_equal; eauto.
Qed.
Definition same_walks (w w' : walk_it) : Prop :=
  same_items (total (walk_events_next F (t_nodes t))) (total (walk_events_next G (t_nodes t))) w w' /\
  same_items (walk_next F (t_nodes t)) (walk_next G (t_nodes t)) w w' /\
  same_items (walk_depths_next F (t_nodes t)) (walk_depths_next G (t_nodes t)) w w'.

Lemma wrun_both w tr d d' : wrun F (t_nodes t) w tr (WalkIt None d) -> wrun G (t_nodes t) w tr (WalkIt None d') -> ups tr < loop_fuel (t_nodes t) -> same_walks w w.
Proof.
  intros R1 R2 Hu. assert (U : forall a b x, Walk.shows (t_nodes t) a x -> Walk.shows (t_nodes t) b x -> a = b) by (intros a b x [E1 _] [E2 _]; congruence).
  split; [|split].
  - eapply enum_rel_both; [|eapply wrun_events; eauto|eapply wrun_events; eauto].
    intros [e n] [e' n'] x [A1 A2] [B1 B2]. simpl in *. f_equal; [congruence|eauto].
  - eapply enum_rel_both; [|eapply wrun_walk; eauto|eapply wrun_walk; eauto]. exact U.
  - eapply enum_rel_both; [|eapply wrun_depths; eauto|eapply wrun_depths; eauto].
    intros [e n] [e' n'] x [A1 A2] [B1 B2]. simpl in *. f_equal; [congruence|eauto].
Qed.
Lemma tree_both : same_walks (tree_walk t) (tree_walk t).
Proof.
  destruct (tree_run F t l (g_fin_rep F t l HF) (g_fin_fits F t l HF)) as [d H].
  destruct (tree_run G t l (g_fin_rep G t l HG) (g_fin_fits G t l HG)) as [d' H'].
  pose proof (ups_trace_list 0 l). pose proof (size_l_le_fuel t l (g_fin_rep F t l HF)).
  eapply wrun_both; eauto. lia.
Qed.
Lemma node_both i n : tree_get t i = Some n -> same_walks (node_walk F n) (node_walk G n).
Proof.
  intros En. pose proof (g_fin_rep F t l HF) as R. assert (Hi : i < length (t_nodes t)).
  { unfold tree_get, node_at in En. apply nth_error_Some. intros Hx. rewrite Hx in En. discriminate. }
  destruct (preorder_of_id _ _ _ R Hi) as (x & Hx & <-).
  destruct (trace_list_sub x l 0%Z Hx) as (tr1 & k & e & tr2 & Et & He).
  rewrite trace_eq, <- app_comm_cons in Et.
  pose proof (mid_run_next F t l R (g_fin_fits F t l HF) _ _ _ _ _ He Et) as Hr.
  pose proof (mid_run_next G t l R (g_fin_fits G t l HG) _ _ _ _ _ He Et) as Hr'.
  unfold node_walk. rewrite (g_node_walk_id F t l HF n x En Hx), (g_node_walk_id G t l HG n x En Hx).
  eapply wrun_both; eauto. pose proof (ups_trace_list 0 l) as Hu. rewrite Et, ups_app in Hu.
  pose proof (size_l_le_fuel t l R). match goal with |- context [?a :: ?b] => change (a :: b) with ([a] ++ b) end.
  match type of Hu with context [(k, e, x) :: ?b] => change ((k, e, x) :: b) with ([(k, e, x)] ++ b) in Hu end.
  rewrite ups_app, ups_shift in *. assert (ups [(0%Z, Next, x)] = 0) as -> by auto. lia.
Qed.
End Walks.

(** walk_events(), walk() and walk().with_depths() of the tree and of each of its nodes go through the same nodes. *)
Theorem C59_walks : forall T F G (ops : list (op T)) t l, comparable F G -> no_overflow (run_outs F ops) -> no_overflow (run_outs G ops) ->
  finished F ops t l -> fits G t ->
  forall from_F from_G, from_F = tree_walk t /\ from_G = tree_walk t \/ (exists i n, tree_get t i = Some n /\ from_F = node_walk F n /\ from_G = node_walk G n) ->
  same_items (total (walk_events_next F (t_nodes t))) (total (walk_events_next G (t_nodes t))) from_F from_G /\
  same_items (walk_next F (t_nodes t)) (walk_next G (t_nodes t)) from_F from_G /\
  same_items (walk_depths_next F (t_nodes t)) (walk_depths_next G (t_nodes t)) from_F from_G.
Proof.
  intros T F G ops t l HC H1 H2 HF Hfit f g Hfg. pose proof (C59_finished T F G ops t l HC H1 H2 HF Hfit) as HG.
  apply fin_good in HF. apply fin_good in HG. destruct Hfg as [[-> ->]|(i & n & E & -> & ->)].
  - exact (tree_both F G t l HF HG).
  - exact (node_both F G t l HF HG i n E).
Qed.
Print Assumptions C59_walks.

(** ** ChangeSet::modify and range queries, on any tree *)
Lemma emit_same T F G (r : refactor T) o cur id n first : comparable F G ->
  emit F r o cur id n first = emit G r o cur id n first \/ snd (emit F r o cur id n first) = Err Overflow \/ snd (emit G r o cur id n first) = Err Overflow.
Proof.
  intros HC. unfold emit.
  assert (El : span_len F (node_span n) = span_len G (node_span n)).
  { destruct HC as (H1 & H2 & _). unfold span_len, ix_len_to. destruct (fl_index F), (fl_index G); congruence. }
  rewrite El.
  match goal with |- context [if first then ?a else ?b] => destruct (if first then a else b) as [[r' prev] o'] end.
  rewrite (push_index_same F G HC cur id o').
  destruct (negb (has_children n) && negb (span_is_empty (node_span n))).
  - destruct (tree_push_index G cur id o') as [o2|]; [|left; auto].
    destruct (add_len F G HC True (or_introl I) cur (span_len G (node_span n))) as [E|[E|[E _]]]; [|rewrite E; auto|rewrite E; auto].
    rewrite E. destruct (ix_checked_add_len G cur (span_len G (node_span n))) as [c|]; [|auto]. rewrite (push_same F G HC). auto.
  - rewrite (push_same F G HC). auto.
Qed.

Lemma modify_loop_same T F G c (nodes : list (links T)) : comparable F G -> forall fuel r o cur current,
  modify_loop fuel F c nodes r o cur current = modify_loop fuel G c nodes r o cur current \/
  modify_loop fuel F c nodes r o cur current = Err Overflow \/ modify_loop fuel G c nodes r o cur current = Err Overflow.
Proof.
  intros HC. induction fuel as [|fuel IH]; intros r o cur [[n first]|]; auto. cbn [modify_loop].
  destruct (pn F G True (or_introl I) (tree_len o)) as [E|[E|[E _]]]; [|rewrite E; auto|rewrite E; auto]. rewrite E.
  destruct (pointer_new G (tree_len o)) as [id|]; auto. cbv zeta.
  assert (GO : forall r n first, let go F := match emit F r o cur id n first with
          | ((r, output, cursor), Ok _) => let '(r, current) := refactor_step nodes r n id in modify_loop fuel F c nodes r output cursor current
          | (_, Err e) => Err e | (_, Diverge) => Diverge end in go F = go G \/ go F = Err Overflow \/ go G = Err Overflow).
  { clear r n first. intros r n first. cbv zeta. destruct (emit_same T F G r o cur id n first HC) as [Ee|[Ee|Ee]].
    - rewrite Ee. destruct (emit G r o cur id n first) as [[[r1 o1] c1] [|e|]]; auto. destruct (refactor_step nodes r1 n id) as [r2 cu]. apply IH.
    - right; left. destruct (emit F r o cur id n first) as [[[r1 o1] c1] x]. simpl in Ee. subst. auto.
    - right; right. destruct (emit G r o cur id n first) as [[[r1 o1] c1] x]. simpl in Ee. subst. auto. }
  destruct (changed c id); [|apply GO]. destruct (skip_subtree nodes r n first) as [r1 [[n1 f1]|]]; [apply GO|auto].
Qed.

(** modify() gives the same tree (or does not return, in both) unless one of the flavors reaches a limit. *)
Theorem C59_modify : forall T F G fuel c (t : tree T), comparable F G ->
  modify fuel F c t = modify fuel G c t \/ modify fuel F c t = Err Overflow \/ modify fuel G c t = Err Overflow.
Proof.
  intros T F G fuel c t HC. unfold modify.
  destruct (modify_loop_same T F G c (t_nodes t) HC fuel (Refactor [] None) tree_new ix_EMPTY (option_map (fun n => (n, false)) (tree_first t))) as [E|[E|E]];
    rewrite E; auto.
Qed.
Print Assumptions C59_modify.

(** node_with_range(): the same answer for positions that both index types can hold; node_with_span() is the same function. *)
Theorem C59_queries : forall T F G bs (t : tree T) s e, comparable F G -> (s <= ix_max F)%N -> (e <= ix_max F)%N -> (s <= ix_max G)%N -> (e <= ix_max G)%N ->
  node_with_range F bs t s e = node_with_range G bs t s e.
Proof.
  intros T F G bs t s e (H1 & H2 & _). unfold node_with_range, ix_from_usize, ix_max. intros.
  destruct (fl_index F), (fl_index G); try congruence; repeat match goal with |- context [N.leb ?a ?b] => destruct (N.leb_spec a b) end; auto; lia.
Qed.
Print Assumptions C59_queries.

(** The printed text and the Debug text are the same. *)
Theorem C59_texts : forall T X F G (ops : list (op T)) t l, comparable F G -> no_overflow (run_outs F ops) -> no_overflow (run_outs G ops) ->
  finished F ops t l -> fits G t -> forall (source : span -> option X) debug quote w,
  print_to F t source debug quote None vec_write_all w = print_to G t source debug quote None vec_write_all w /\
  tree_debug F debug t = tree_debug G debug t.
Proof.
  intros T X F G ops t l HC H1 H2 HF Hfit source debug quote w. pose proof (C59_finished T F G ops t l HC H1 H2 HF Hfit) as HG.
  assert (S1 : SpecText.shows F t l) by (apply C54_shows; eauto). assert (S2 : SpecText.shows G t l) by (apply C54_shows; eauto).
  split.
  - destruct (C54_text T X F t l source debug quote None w S1) as [E1 _]. destruct (C54_text T X G t l source debug quote None w S2) as [E2 _].
    rewrite E1, E2; auto; intros m; discriminate.
  - rewrite (C54_debug T F t l debug S1), (C54_debug T G t l debug S2). f_equal. unfold SpecText.debug_text, SpecText.entries_text. destruct HC as (N1 & N2 & _).
    replace (map (SpecText.entry_text G debug) (flat_map (preorder_depth 0) l)) with (map (SpecText.entry_text F debug) (flat_map (preorder_depth 0) l)); auto.
    apply map_ext. intros [k x]. unfold SpecText.entry_text. destruct (fl_index F), (fl_index G); congruence.
Qed.
Print Assumptions C59_texts.

(** The default flavor and one with one-byte pointers and usize indexes. *)
Definition flavor_small : flavor := Flavor usize_max_64 IxUsize U8 SVec SVec.

(** A range beyond u32::MAX is where node_with_range differs: the u32 flavor answers None without looking. *)
Theorem C59_range_limit : exists n, node_with_range flavor_default std_search demo_tree 0 4294967296 = Ok None /\
  node_with_range flavor_small std_search demo_tree 0 4294967296 = Ok (Some n).
Proof. eexists. split; vm_compute; reflexivity. Qed.
Print Assumptions C59_range_limit.

Example C59_inhabited : comparable flavor_default flavor_small /\ comparable flavor_small flavor_default /\ ~ roomier flavor_default flavor_small /\
  no_overflow (run_outs flavor_default demo_ops) /\ no_overflow (run_outs flavor_small demo_ops) /\
  finished flavor_default demo_ops demo_tree demo_doc /\ fits flavor_small demo_tree /\
  roomier flavor_small (Flavor usize_max_64 IxUsize Usize SVec SVec) /\
  (** and here a limit makes a difference: the 256th node. *)
  (let ops := repeat (OTokenEmpty 0) 256 in run_outs flavor_small ops <> run_outs flavor_default ops).
Proof.
  assert (D : forall rs : list out, existsb (fun r => match r with RErr Overflow => true | _ => false end) rs = false -> no_overflow rs).
  { intros rs E H. assert (E2 : existsb (fun r => match r with RErr Overflow => true | _ => false end) rs = true) by (apply existsb_exists; eauto). congruence. }
  split; [split; [|split; [|split]]; discriminate || reflexivity|]. split; [split; [|split; [|split]]; discriminate || reflexivity|].
  split; [intros [H _]; vm_compute in H; apply H; reflexivity|]. split; [apply D; vm_compute; reflexivity|]. split; [apply D; vm_compute; reflexivity|].
  split; [exact demo_finished|]. split; [vm_compute; reflexivity|]. split; [split; vm_compute; discriminate|].
  cbv zeta. intros E. assert (E2 : forall rs rs' : list out, rs = rs' -> last rs RUnit = last rs' RUnit) by congruence. apply E2 in E. vm_compute in E. discriminate.
Qed.
