(** Relabelling: documents and link tables under a change of values. *)
From Coq Require Import Lia.
From Verif Require Import Base Pointer Index Tree Builder Hist Node Spec SpecMap Rep Marks Refine DocInv Opaque AllHist StepFacts PropsSafe.

Section Relabel.
Context {T U : Type}.
Variable F : flavor.
Variable g : nat -> T -> U.

Definition frame_map (f : frame T) : frame U :=
  Frame (f_id f) (g (f_id f) (f_data f)) (f_span f) (map (relabel g) (f_left f)).
Definition doc_map (a : doc T) : doc U :=
  Doc (map (relabel g) (a_cur a)) (map frame_map (a_open a)) (a_n a) (a_cursor a) (a_span a) (a_index a) (a_marks a).

Lemma rl_id x : r_id (relabel g x) = r_id x. Proof. destruct x; auto. Qed.
Lemma rl_span x : r_span (relabel g x) = r_span x. Proof. destruct x; auto. Qed.
Lemma rl_kids x : r_kids (relabel g x) = map (relabel g) (r_kids x). Proof. destruct x; auto. Qed.
Lemma rl_touch e fs : map frame_map (touch e fs) = touch e (map frame_map fs).
Proof. destruct fs; auto. Qed.
Lemma rl_widen e fs : map frame_map (widen e fs) = widen e (map frame_map fs).
Proof. destruct fs; auto. Qed.
Lemma rl_level fs : level (map frame_map fs) = level fs.
Proof. destruct fs; auto. Qed.
Lemma rl_run_end x l : run_end (relabel g x) (map (relabel g) l) = run_end x l.
Proof. revert x; induction l as [|y l IH]; intros x; simpl; [rewrite rl_span; auto|apply IH]. Qed.

Definition lift (r : option (doc T * out)) : option (doc U * out) :=
  match r with Some (a, r) => Some (doc_map a, r) | None => None end.

Lemma rl_open_with d sp a : a_open_with F (g (a_n a) d) sp (doc_map a) =
  (doc_map (fst (a_open_with F d sp a)), snd (a_open_with F d sp a)).
Proof.
  unfold a_open_with, full. cbn [a_n doc_map]. destruct (N.leb _ _); auto. unfold doc_map; simpl. rewrite rl_touch. auto.
Qed.
Lemma rl_leaf d sp a : a_leaf (g (a_n a) d) sp (doc_map a) = doc_map (a_leaf d sp a).
Proof. unfold a_leaf, doc_map; simpl. rewrite map_app, rl_touch. auto. Qed.
Lemma rl_token d len a : a_token F (g (a_n a) d) len (doc_map a) =
  (doc_map (fst (a_token F d len a)), snd (a_token F d len a)).
Proof.
  unfold a_token, full. cbn [a_n a_cursor doc_map]. destruct (len_is_empty F len).
  - destruct (N.leb _ _); auto. simpl. rewrite rl_leaf. auto.
  - destruct (ix_checked_add_len _ _ _); auto. destruct (N.leb _ _); auto. simpl.
    unfold push_index, a_leaf, doc_map; simpl. rewrite map_app, rl_touch. auto.
Qed.

Lemma rl_close_at k d osp a : a_close_at F k (g (a_n a) d) osp (doc_map a) = lift (a_close_at F k d osp a).
Proof.
  unfold a_close_at, full. cbn [a_n a_marks a_open a_cur a_cursor doc_map]. rewrite rl_level.
  destruct (nth_error (a_marks a) k) as [m|]; auto. destruct (negb _); auto. destruct (N.leb _ _); auto.
  destruct m as [lv pos|]; auto. rewrite skipn_map. destruct (skipn pos (a_cur a)) as [|x w]; simpl.
  - rewrite rl_leaf. auto.
  - unfold doc_map; simpl. rewrite map_app, firstn_map. simpl. unfold run_span. rewrite rl_span, rl_run_end. auto.
Qed.

Lemma rl_step a o : a_step F (doc_map a) (op_map (g (a_n a)) o) = lift (a_step F a o).
Proof.
  destruct o; cbn [a_step op_map lift]; cbn [a_cursor doc_map]; rewrite ?rl_close_at; auto.
  - fold (doc_map a). rewrite rl_open_with. destruct (a_open_with F d _ a); auto.
  - fold (doc_map a). rewrite rl_open_with. destruct (a_open_with F d _ a); auto.
  - unfold a_close; simpl. destruct (a_open a) as [|f fs]; simpl; auto. unfold doc_map; simpl. rewrite map_app, rl_widen. auto.
  - fold (doc_map a). rewrite rl_token. destruct (a_token F d _ a); auto.
  - fold (doc_map a). rewrite rl_token. destruct (a_token F d _ a); auto.
  - unfold a_token_with, full; simpl. destruct (N.leb _ _); simpl; auto. unfold doc_map; simpl. rewrite map_app, rl_widen, rl_touch. auto.
  - unfold a_checkpoint, full; simpl. destruct (N.leb _ _); simpl; auto. unfold doc_map; simpl. rewrite rl_level, map_length. auto.
Qed.

(** The history with its values changed: [n] nodes so far. *)
Fixpoint op_relabel (n : nat) (ops : list (op T)) (rs : list out) : list (op U) :=
  match ops, rs with
  | o :: ops, RNode _ :: rs => op_map (g n) o :: op_relabel (S n) ops rs
  | o :: ops, _ :: rs => op_map (g n) o :: op_relabel n ops rs
  | _, _ => []
  end.

Lemma step_n (a : doc T) o a' r : a_step F a o = Some (a', r) -> a_n a' = match r with RNode _ => S (a_n a) | _ => a_n a end.
Proof.
  intros E. apply a_step_moved in E as (v & M & _). inversion M; subst; auto. destruct r; auto. exfalso; eapply H2; eauto.
Qed.

Lemma rl_run ops : forall a a' rs, a_run F a ops = Some (a', rs) ->
  a_run F (doc_map a) (op_relabel (a_n a) ops rs) = Some (doc_map a', rs).
Proof.
  induction ops as [|o ops IH]; intros a a' rs E; simpl in E.
  - injection E as <- <-. auto.
  - destruct (a_step F a o) as [[a1 r]|] eqn:Es; [|discriminate].
    destruct (a_run F a1 ops) as [[a2 rs2]|] eqn:Er; [|discriminate]. injection E as <- <-.
    pose proof (step_n _ _ _ _ Es) as Hn. specialize (IH _ _ _ Er). pose proof (rl_step a o) as Hs. rewrite Es in Hs. simpl in Hs.
    destruct r; simpl; rewrite Hs; rewrite <- Hn, IH; auto.
Qed.

Lemma rl_same_op f (o : op T) : @same_call T U o (op_map f o).
Proof. destruct o; constructor. Qed.
Lemma rl_same ops : forall n rs, length rs = length ops -> Forall2 same_call ops (op_relabel n ops rs).
Proof.
  induction ops as [|o ops IH]; intros n [|r rs] E; try discriminate; [constructor|].
  injection E as E. destruct r; simpl; constructor; auto using rl_same_op.
Qed.

Lemma op_value_map (f : T -> U) (o : op T) : op_value (op_map f o) = option_map f (op_value o).
Proof. destruct o; auto. Qed.

Fixpoint mapi {A B} (f : nat -> A -> B) (n : nat) (l : list A) : list B :=
  match l with [] => [] | x :: l => f n x :: mapi f (S n) l end.

(** every result that names a node belongs to a call with a value *)
Definition valued (o : op T) (r : out) : Prop := forall i, r = RNode i -> op_value o <> None.

Lemma rl_inserted ops : forall n rs, Forall2 valued ops rs ->
  inserted (op_relabel n ops rs) rs = mapi g n (inserted ops rs).
Proof.
  intros n rs H. revert n. induction H as [|o r ops rs Ho Hs IH]; intros n; simpl; auto.
  destruct r; simpl; auto. rewrite op_value_map. destruct (op_value o) eqn:E; simpl.
  - rewrite IH. auto.
  - exfalso. eapply Ho; eauto.
Qed.

(** The link table with its values changed. *)
Definition links_map (d : U) (l : links T) : links U :=
  Links d (l_span l) (l_parent l) (l_prev l) (l_next l) (l_first l) (l_last l).
Definition table_map (n : nat) (ns : list (links T)) : list (links U) :=
  mapi (fun i l => links_map (g i (l_data l)) l) n ns.
Definition tree_map (t : tree T) : tree U :=
  Tree (table_map 0 (t_nodes t)) (t_span t) (t_indexes t) (t_first t) (t_last t).

Lemma table_map_eq ns : forall n ms, nrel ns ms -> datas ms = mapi g n (datas ns) -> ms = table_map n ns.
Proof.
  intros n ms H. revert n. induction H as [|l m ns ms Hl Hs IH]; intros n E; auto.
  simpl in E. injection E as E1 E2. change (m :: ms = links_map (g n (l_data l)) l :: table_map (S n) ns). f_equal; auto.
  destruct Hl as (A & B & C & D & G & K). destruct m as [md msp mp mv mn mf ml]; unfold links_map; simpl in *. rewrite E1, A, B, C, D, G, K. auto.
Qed.

Lemma valued_run ops : forall w, Forall2 valued ops (snd (run F w ops)).
Proof.
  induction ops as [|o ops IH]; intros w; simpl; [constructor|].
  destruct (step F w o) as [w1 r] eqn:Es. specialize (IH w1). destruct (run F w1 ops) as [w2 rs]. simpl in *. constructor; auto.
  intros i ->. destruct o; simpl in *; try discriminate.
  - destruct (close (w_builder w)) as [? [?|?|]]; discriminate.
  - destruct (checkpoint F (w_heap w) (w_builder w)) as [[? ?] [?|?|]]; discriminate.
Qed.

Lemma run_datas_inserted {V} (HF : vec_flavor F) (ops : list (op V)) : datas (t_nodes (tree_so_far F ops)) = inserted ops (run_outs F ops).
Proof.
  assert (G : forall (ops : list (op V)) w, wok w -> w_datas (fst (run F w ops)) = w_datas w ++ inserted ops (snd (run F w ops))).
  { clear ops. intros ops. induction ops as [|o ops IH]; intros w Hw; simpl; [rewrite app_nil_r; auto|].
    destruct (step_ok F HF w o Hw) as [Hw1 Hf]. pose proof (step_grows F HF w o Hf) as G.
    destruct (step F w o) as [w1 r1]. cbn [fst snd] in *. specialize (IH w1 Hw1).
    destruct (run F w1 ops) as [w2 rs]. cbn [fst snd] in *. rewrite IH.
    destruct r1 as [|id| | | |]; cbn [grows] in G; simpl; try (rewrite G; reflexivity).
    destruct G as (_ & d & -> & ->). rewrite <- app_assoc. auto. }
  exact (G ops world_new wok_new).
Qed.

Lemma run_length (ops : list (op T)) : forall w, length (snd (run F w ops)) = length ops.
Proof.
  induction ops as [|o ops IH]; intros w; simpl; auto. destruct (step F w o) as [w1 r]. specialize (IH w1).
  destruct (run F w1 ops). simpl in *. auto.
Qed.

Lemma tree_relabel (HF : vec_flavor F) (ops : list (op T)) (qs : list (op U)) : Forall2 same_call ops qs ->
  inserted qs (run_outs F ops) = mapi g 0 (inserted ops (run_outs F ops)) ->
  run_outs F qs = run_outs F ops /\ tree_so_far F qs = tree_map (tree_so_far F ops) /\
  b_parent (w_builder (run_world F qs)) = b_parent (w_builder (run_world F ops)).
Proof.
  intros H Ei. destruct (run_rel F ops qs H _ _ wrel_new) as [(Hh & Hb & He) Ho].
  assert (Eo : run_outs F qs = run_outs F ops) by (symmetry; exact Ho).
  split; auto. destruct Hb as (Ht & Hc & Hp & Hs & Hcur). split; [|symmetry; exact Hp].
  destruct Ht as (A & B & C & D & E). unfold tree_map.
  assert (G : t_nodes (tree_so_far F qs) = table_map 0 (t_nodes (tree_so_far F ops))).
  { apply table_map_eq; [exact A|]. rewrite !run_datas_inserted by auto. rewrite Eo. exact Ei. }
  rewrite <- G. unfold tree_so_far, run_world in *. destruct (b_tree (w_builder (fst (run F world_new qs)))). simpl in *. subst. auto.
Qed.
End Relabel.
