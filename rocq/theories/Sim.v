(** Simulation between worlds that differ in the checkpoints they hold. *)
From Coq Require Import Lia.
From Verif Require Import Base Pointer Index Tree Builder Hist Spec SpecMarks Rep Refine AllHist StepFacts.

Section Sim.
Context {T : Type}.
Variable F : flavor.
Implicit Types (b : builder T) (h : heap) (w : world T) (o : op T) (m : option nat).

Notation memo := set_b_checkpoint.

(** ** No call but [checkpoint] looks at the memo *)
Lemma insert_memo d sp m b : insert F d sp (memo m b) = (memo m (fst (insert F d sp b)), snd (insert F d sp b)).
Proof.
  unfold insert. simpl. destruct (pointer_new _ _); auto.
  destruct (tree_push _ _ _); auto.
Qed.
Lemma open_with_memo d sp m b : open_with F d sp (memo m b) = (memo m (fst (open_with F d sp b)), snd (open_with F d sp b)).
Proof. unfold open_with. rewrite insert_memo. destruct (insert F d sp b) as [b1 [|e|]]; auto. Qed.
Lemma open_memo d m b : open F d (memo m b) = (memo m (fst (open F d b)), snd (open F d b)).
Proof. apply (open_with_memo d (span_point (b_cursor b)) m b). Qed.
Lemma close_memo m b : close (memo m b) = (memo m (fst (close b)), snd (close b)).
Proof.
  unfold close. simpl. destruct (b_parent b) as [hd|]; auto.
  destruct (nth_error _ hd) as [l|]; auto. destruct (l_parent l) as [p|]; auto. destruct (nth_error _ p); auto.
Qed.
Lemma token_memo d len m b : token F d len (memo m b) = (memo m (fst (token F d len b)), snd (token F d len b)).
Proof.
  unfold token. simpl.
  assert (G : forall sp b0, (match insert F d sp (memo m b0) with
    | (b, Ok id) => if len_is_empty F len then (set_b_sibling (Some id) b, Ok id)
        else match tree_push_index F (b_cursor b) id (b_tree b) with
             | None => (set_b_sibling (Some id) b, Err FlavorError)
             | Some t => (set_b_tree t (set_b_sibling (Some id) b), Ok id) end
    | (b, Err e) => (b, Err e) | (b, Diverge) => (b, Diverge) end) =
    let r := (match insert F d sp b0 with
    | (b, Ok id) => if len_is_empty F len then (set_b_sibling (Some id) b, Ok id)
        else match tree_push_index F (b_cursor b) id (b_tree b) with
             | None => (set_b_sibling (Some id) b, Err FlavorError)
             | Some t => (set_b_tree t (set_b_sibling (Some id) b), Ok id) end
    | (b, Err e) => (b, Err e) | (b, Diverge) => (b, Diverge) end) in (memo m (fst r), snd r)).
  { intros sp b0. rewrite insert_memo. destruct (insert F d sp b0) as [b1 [i|e|]]; auto. simpl.
    destruct (len_is_empty F len); auto. destruct (tree_push_index _ _ _ _); auto. }
  destruct (len_is_empty F len) eqn:El; [exact (G (Span (b_cursor b) (b_cursor b)) b)|].
  destruct (ix_checked_add_len F (b_cursor b) len) as [c|]; auto.
  exact (G (Span (b_cursor b) c) (set_b_tree (set_t_span (set_end (t_span (b_tree b)) c) (b_tree b)) (set_b_cursor c b))).
Qed.
Lemma token_with_memo d sp m b : token_with F d sp (memo m b) = (memo m (fst (token_with F d sp b)), snd (token_with F d sp b)).
Proof.
  unfold token_with. rewrite insert_memo. destruct (insert F d sp b) as [b1 [i|e|]]; auto. simpl.
  destruct (tree_push_index _ _ _ _); auto.
Qed.

(** [close_at] reads one cell of the heap and may overwrite it. *)
Definition rewrites (a : nat) h h' (c' : option cell) : Prop :=
  match c' with None => h' = h | Some c' => h' = upd h a (fun _ => c') end.

Lemma close_at_memo d osp a a' c h h' m b : nth_error h a = Some c -> nth_error h' a' = Some c ->
  exists h1 h1' b1 r c1, close_at_gen F a d osp h b = (h1, b1, r) /\
    close_at_gen F a' d osp h' (memo m b) = (h1', memo m b1, r) /\
    rewrites a h h1 c1 /\ rewrites a' h' h1' c1.
Proof.
  intros Ea Ea'. unfold close_at_gen. rewrite Ea, Ea'. simpl.
  destruct (negb _); [exists h, h', b, (Err CloseAtError), None; simpl; auto|].
  destruct (pointer_new _ _) as [n|]; [|exists h, h', b, (Err Overflow), None; simpl; auto].
  destruct (nth_error _ (c_node c)) as [l|].
  - destruct (match l_next l with Some next => _ | None => _ end) as [ns [[la e]|e|]];
      [|do 4 eexists; exists None; split; [reflexivity|]; split; [reflexivity|]; split; reflexivity..].
    destruct (tree_push _ _ _);
      [|do 4 eexists; exists None; split; [reflexivity|]; split; [reflexivity|]; split; reflexivity].
    do 4 eexists. exists (Some (Cell n (l_parent l))). split; [reflexivity|]. split; [reflexivity|]. split; reflexivity.
  - rewrite insert_memo. destruct (insert F d _ b) as [b1 [i|e|]]; simpl;
      [destruct (Nat.eqb i (c_node c))|..];
      (do 4 eexists; exists None; split; [reflexivity|]; split; [reflexivity|]; split; reflexivity).
Qed.

(** ** The memo is the only cell for the current place *)
Hypothesis HF : vec_flavor F.

Definition rank (p : option nat) : nat := match p with None => 0 | Some i => S i end.

Record late w : Prop := {
  lt_memo : forall a c, nth_error (w_heap w) a = Some c -> c_node c = tree_len (b_tree (w_builder w)) ->
    rank (b_parent (w_builder w)) <= rank (c_parent c) /\
    (c_parent c = b_parent (w_builder w) -> b_checkpoint (w_builder w) = Some a);
  lt_env : forall a, b_checkpoint (w_builder w) = Some a -> In a (w_env w);
}.

Lemma late_new : late world_new.
Proof. constructor; simpl; try discriminate. intros [|a]; discriminate. Qed.

Lemma wlen w : length (w_datas w) = tree_len (b_tree (w_builder w)).
Proof. apply len_datas. Qed.

Lemma step_len w o : fine_out (snd (step F w o)) ->
  tree_len (b_tree (w_builder (fst (step F w o)))) =
  match snd (step F w o) with RNode _ => S (tree_len (b_tree (w_builder w))) | _ => tree_len (b_tree (w_builder w)) end.
Proof.
  intros Hf. pose proof (step_grows F HF w o Hf) as G. rewrite <- !wlen.
  destruct (snd (step F w o)); simpl in G; try (rewrite G; auto).
  destruct G as (_ & d & _ & ->). rewrite app_length. simpl. lia.
Qed.

Lemma cells_le w a c : wok w -> nth_error (w_heap w) a = Some c -> c_node c <= tree_len (b_tree (w_builder w)).
Proof. intros [(lo & hi & cap & stk & _ & HC) _] E. apply (HC a c E). Qed.

(** A call that adds a node leaves no cell naming the next one. *)
Lemma late_node w w' : wok w -> tree_len (b_tree (w_builder w')) = S (tree_len (b_tree (w_builder w))) ->
  (forall a c, nth_error (w_heap w') a = Some c -> nth_error (w_heap w) a = Some c \/ c_node c = tree_len (b_tree (w_builder w))) ->
  b_checkpoint (w_builder w') = b_checkpoint (w_builder w) -> w_env w' = w_env w -> late w -> late w'.
Proof.
  intros Hw Hl Hc Hm He H. constructor.
  - intros a c E En. exfalso. destruct (Hc a c E) as [E'|E']; [apply (cells_le _ _ _ Hw) in E'|]; lia.
  - rewrite Hm, He. apply (lt_env _ H).
Qed.
Lemma late_same w w' : w_heap w' = w_heap w -> w_env w' = w_env w ->
  tree_len (b_tree (w_builder w')) = tree_len (b_tree (w_builder w)) ->
  b_checkpoint (w_builder w') = b_checkpoint (w_builder w) ->
  (b_parent (w_builder w') = b_parent (w_builder w) \/ rank (b_parent (w_builder w')) < rank (b_parent (w_builder w))) ->
  late w -> late w'.
Proof.
  intros Hh He Hl Hm Hp [H1 H2]. constructor.
  - rewrite Hh, Hl, Hm. intros a c E En. destruct (H1 a c E En) as [A B]. destruct Hp as [->|Hp]; [auto|].
    split; [lia|]. intros X. rewrite X in A. lia.
  - rewrite Hm, He. auto.
Qed.

(** Calls without a checkpoint in them. *)
Definition local o : bool :=
  match o with OCheckpoint | OCloseAt _ _ | OCloseAtWith _ _ _ => false | _ => true end.

Lemma insert_fields d sp b : b_checkpoint (fst (insert F d sp b)) = b_checkpoint b /\ b_parent (fst (insert F d sp b)) = b_parent b.
Proof.
  unfold insert. destruct (pointer_new _ _); auto. simpl. destruct (tree_push _ _ _); auto.
Qed.
Lemma token_fields d len b : b_checkpoint (fst (token F d len b)) = b_checkpoint b /\ b_parent (fst (token F d len b)) = b_parent b.
Proof.
  unfold token. simpl.
  assert (G : forall sp b0, let r := (match insert F d sp b0 with
    | (b, Ok id) => if len_is_empty F len then (set_b_sibling (Some id) b, Ok id)
        else match tree_push_index F (b_cursor b) id (b_tree b) with
             | None => (set_b_sibling (Some id) b, Err FlavorError)
             | Some t => (set_b_tree t (set_b_sibling (Some id) b), Ok id) end
    | (b, Err e) => (b, Err e) | (b, Diverge) => (b, Diverge) end) in b_checkpoint (fst r) = b_checkpoint b0 /\ b_parent (fst r) = b_parent b0).
  { intros sp b0. destruct (insert_fields d sp b0) as [A B]. destruct (insert F d sp b0) as [b1 [i|e|]]; simpl in *; auto.
    destruct (len_is_empty F len); auto. destruct (tree_push_index _ _ _ _); auto. }
  destruct (len_is_empty F len) eqn:El; [exact (G (Span (b_cursor b) (b_cursor b)) b)|].
  destruct (ix_checked_add_len F (b_cursor b) len) as [c|]; auto.
  exact (G (Span (b_cursor b) c) (set_b_tree (set_t_span (set_end (t_span (b_tree b)) c) (b_tree b)) (set_b_cursor c b))).
Qed.

Lemma local_shape w o : local o = true ->
  w_heap (fst (step F w o)) = w_heap w /\ w_env (fst (step F w o)) = w_env w /\
  b_checkpoint (w_builder (fst (step F w o))) = b_checkpoint (w_builder w).
Proof.
  destruct w as [h b env]. destruct o; simpl; try discriminate; intros _.
  - unfold open. destruct (insert_fields d (span_point (b_cursor b)) b) as [A B]. destruct (insert F d _ b) as [b1 [i|e|]]; simpl in *; auto.
  - unfold open_with. destruct (insert_fields d sp b) as [A B]. destruct (insert F d _ b) as [b1 [i|e|]]; simpl in *; auto.
  - unfold close. destruct (b_parent b) as [hd|]; auto. simpl. destruct (nth_error _ hd) as [l|]; auto.
    destruct (l_parent l) as [p|]; auto. destruct (nth_error _ p); auto.
  - destruct (token_fields d len b) as [A B]. destruct (token F d len b); auto.
  - unfold token_empty. destruct (token_fields d len_EMPTY b) as [A B]. destruct (token F d len_EMPTY b); auto.
  - unfold token_with. destruct (insert_fields d sp b) as [A B]. destruct (insert F d _ b) as [b1 [i|e|]]; simpl in *; auto.
    destruct (tree_push_index _ _ _ _); simpl; auto.
  - auto.
Qed.

(** The parent moves only with a new node, or down the stack. *)
Lemma local_parent w o : local o = true -> wok w -> fine_out (snd (step F w o)) ->
  (exists i, snd (step F w o) = RNode i) \/
  b_parent (w_builder (fst (step F w o))) = b_parent (w_builder w) \/
  rank (b_parent (w_builder (fst (step F w o)))) < rank (b_parent (w_builder w)).
Proof.
  destruct w as [h b env]. intros Hl Hw Hf. destruct o; simpl in *; try discriminate.
  - unfold open in *. destruct (insert_fields d (span_point (b_cursor b)) b) as [A B]. destruct (insert F d _ b) as [b1 [i|e|]]; simpl in *; eauto.
  - unfold open_with in *. destruct (insert_fields d sp b) as [A B]. destruct (insert F d _ b) as [b1 [i|e|]]; simpl in *; eauto.
  - right. unfold close in *. destruct (b_parent b) as [hd|] eqn:Ep; simpl in *; auto.
    destruct (nth_error _ hd) as [l|] eqn:El; simpl in *; [|tauto].
    destruct Hw as [(lo & hi & cap & stk & HB & HC) _]. simpl in *.
    pose proof (bi_parent _ _ _ _ _ HB) as Hh. pose proof (bi_stack _ _ _ _ _ HB) as Hs. rewrite Ep in Hh.
    destruct stk as [|x stk]; [discriminate|]. simpl in Hh. injection Hh as <-.
    destruct Hs as [[l' [E' [Elp _]]] [Hlt _]]. rewrite El in E'. injection E' as <-.
    destruct (l_parent l) as [p|] eqn:Elpp; simpl in *; [|lia].
    destruct (nth_error _ p) as [lp|]; simpl in *; [|tauto].
    assert (p < hd); [|lia]. apply Hlt. destruct stk; simpl in *; [discriminate|]. injection Elp as ->. auto.
  - destruct (token_fields d len b) as [A B]. destruct (token F d len b); auto.
  - unfold token_empty. destruct (token_fields d len_EMPTY b) as [A B]. destruct (token F d len_EMPTY b); auto.
  - unfold token_with. destruct (insert_fields d sp b) as [A B]. destruct (insert F d _ b) as [b1 [i|e|]]; simpl in *; auto.
    destruct (tree_push_index _ _ _ _) as [t1|]; simpl; eauto.
  - auto.
Qed.

Lemma close_at_shape d osp a h b :
  let '(h', b', r) := close_at_gen F a d osp h b in
  b_checkpoint b' = b_checkpoint b /\ b_parent b' = b_parent b /\
  (h' = h \/ exists i p, r = Ok i /\ pointer_new F (tree_len (b_tree b)) = Some i /\ h' = upd h a (fun _ => Cell i p)).
Proof.
  unfold close_at_gen. destruct (nth_error h a) as [c|]; auto.
  destruct (negb _); auto. destruct (pointer_new _ _) as [n|] eqn:En; auto.
  destruct (nth_error _ (c_node c)) as [l|].
  - cbv zeta. destruct (match l_next l with Some next => _ | None => _ end) as [ns [[la e]|e|]]; simpl; auto.
    destruct (tree_push _ _ _); simpl; auto. split; auto. split; auto. right. eauto.
  - destruct (insert_fields d (match osp with Some sp => sp | None => span_point (b_cursor b) end) b) as [A B].
    destruct (insert F d _ b) as [b1 [i|e|]]; simpl in *; auto. destruct (Nat.eqb i (c_node c)); auto.
Qed.

Lemma late_step w o : wok w -> late w -> late (fst (step F w o)).
Proof.
  intros Hw H. destruct (step_ok F HF w o Hw) as [Hw1 Hf]. pose proof (step_len w o Hf) as Hlen.
  destruct (local o) eqn:Hl.
  - destruct (local_shape w o Hl) as (E1 & E2 & E3).
    destruct (local_parent w o Hl Hw Hf) as [[i Hi]|Hp].
    + rewrite Hi in Hlen. apply (late_node w); [exact Hw|exact Hlen|rewrite E1; auto|exact E3|exact E2|exact H].
    + destruct (snd (step F w o)) eqn:Er;
        try (eapply late_same; [exact E1|exact E2|exact Hlen|exact E3|exact Hp|exact H]).
      apply (late_node w); [exact Hw|exact Hlen|rewrite E1; auto|exact E3|exact E2|exact H].
  - assert (CA : forall k d osp, late (fst (match nth_error (w_env w) k with None => (w, RNoHandle) | Some a =>
        let '(h, b, r) := close_at_gen F a d osp (w_heap w) (w_builder w) in (World h b (w_env w), out_node r) end))).
    { intros k d osp. destruct (nth_error (w_env w) k) as [a|] eqn:Ek; auto.
      destruct (nth_in (w_heap w) a) as [c Ec]; [apply Hw; eapply nth_error_In; eauto|].
      pose proof (close_at_shape d osp a (w_heap w) (w_builder w)) as HS.
      pose proof (close_at_ok F HF _ _ a c d osp (proj1 Hw) Ec) as HO.
      pose proof (close_at_grows F HF (w_heap w) (w_builder w) a d osp) as HG.
      destruct (close_at_gen F a d osp (w_heap w) (w_builder w)) as [[h' b'] r].
      destruct HS as (S1 & S2 & S3). destruct HO as (_ & Hfine & _). specialize (HG (fine_node _ Hfine)).
      simpl. assert (LL : tree_len (b_tree b') = match out_node r with RNode _ => S (tree_len (b_tree (w_builder w))) | _ => tree_len (b_tree (w_builder w)) end).
      { rewrite <- !len_datas. destruct (out_node r); simpl in HG; try (rewrite HG; auto).
        destruct HG as (_ & dd & _ & ->). rewrite app_length. simpl. lia. }
      destruct S3 as [->|(i & p & -> & Hp & ->)].
      - destruct (out_node r); try (eapply late_same; simpl; [reflexivity|reflexivity|exact LL|exact S1|left; exact S2|exact H]).
        eapply late_node; [exact Hw|exact LL| |exact S1|reflexivity|exact H]. simpl. auto.
      - simpl in LL. eapply late_node; [exact Hw|exact LL| |exact S1|reflexivity|exact H].
        simpl. intros a0 c0. rewrite nth_upd. destruct (Nat.eqb_spec a a0) as [->|]; auto.
        rewrite Ec. simpl. intros E. right. injection E as <-. simpl.
        rewrite pointer_new_spec in Hp. destruct (_ <=? _)%N; congruence. }
    destruct w as [h b env]. destruct o; simpl in Hl; try discriminate.
    + simpl. unfold checkpoint. rewrite pointer_new_spec. destruct (_ <=? _)%N eqn:Efull; [simpl; destruct H; constructor; auto|].
      assert (FR : (forall a c, b_checkpoint b = Some a -> nth_error h a = Some c ->
           c_node c = tree_len (b_tree b) -> c_parent c = b_parent b -> False) ->
         late (World (h ++ [Cell (tree_len (b_tree b)) (b_parent b)]) (set_b_checkpoint (Some (length h)) b) (env ++ [length h]))).
      { intros Hno. destruct H as [H1 H2]. simpl in *. constructor; simpl.
        - intros a c E En. destruct (Nat.lt_ge_cases a (length h)) as [La|La].
          + rewrite nth_error_app1 in E by auto. destruct (H1 a c E En) as [A B]. split; auto.
            intros Ep. exfalso. eapply Hno; eauto.
          + assert (a = length h) as ->.
            { apply nth_lt in E. rewrite app_length in E. simpl in E. lia. }
            rewrite nth_error_app2, Nat.sub_diag in E by lia. simpl in E. injection E as <-. simpl. auto.
        - intros a E. injection E as <-. apply in_app_iff. simpl. auto. }
      destruct (b_checkpoint b) as [a|] eqn:Em.
      * destruct (nth_error h a) as [c|] eqn:Ec.
        -- destruct (Nat.eqb_spec (c_node c) (tree_len (b_tree b))) as [Ec1|Ec1]; simpl.
           ++ destruct (opt_nat_eqb_spec (c_parent c) (b_parent b)) as [Ec2|Ec2]; simpl.
              ** destruct H as [H1 H2]; simpl in *. constructor; simpl; auto. intros x Ex. apply in_app_iff. auto.
              ** apply FR. intros a' c' X1 X2 X3 X4. injection X1 as <-. congruence.
           ++ apply FR. intros a' c' X1 X2 X3 X4. injection X1 as <-. congruence.
        -- apply FR. intros a' c' X1 X2 X3 X4. injection X1 as <-. congruence.
      * apply FR. discriminate.
    + exact (CA k d None).
    + exact (CA k d (Some sp)).
Qed.

(** ** The simulation *)
Definition named (names : list nat) (n : nat) (k : nat) := nth k names (n + k).

Record sim (names : list nat) (n : nat) w w' : Prop := {
  sm_b : exists m, w_builder w' = memo m (w_builder w);
  sm_names : length (w_env w) <= length names;
  sm_n : length (w_env w') <= n;
  sm_room : is_full F (w_builder w) = false -> length (w_env w) = length names /\ length (w_env w') = n;
  sm_in : forall k a, nth_error (w_env w) k = Some a -> exists a' c,
     nth_error (w_env w') (named names n k) = Some a' /\ nth_error (w_heap w) a = Some c /\ nth_error (w_heap w') a' = Some c;
  sm_lt : Forall (fun j => j < n) names;
  sm_out : forall k, nth_error (w_env w) k = None -> nth_error (w_env w') (named names n k) = None;
  sm_alias : forall k1 k2 a1 a2 a1' a2', nth_error (w_env w) k1 = Some a1 -> nth_error (w_env w) k2 = Some a2 ->
     nth_error (w_env w') (named names n k1) = Some a1' -> nth_error (w_env w') (named names n k2) = Some a2' ->
     (a1 = a2 <-> a1' = a2');
}.

Lemma sim_new : sim [] 0 world_new world_new.
Proof.
  constructor; simpl; auto.
  - exists None. auto.
  - intros [|k]; discriminate.
  - intros k _. apply nth_error_None. simpl. lia.
  - intros [|k1]; discriminate.
Qed.

Lemma full_grows w o : wok w -> is_full F (w_builder (fst (step F w o))) = false -> is_full F (w_builder w) = false.
Proof.
  intros Hw. destruct (step_ok F HF w o Hw) as [_ Hf]. pose proof (step_len w o Hf) as Hl.
  unfold is_full. intros E. apply N.leb_gt in E. apply N.leb_gt.
  assert (tree_len (b_tree (w_builder w)) <= tree_len (b_tree (w_builder (fst (step F w o))))); [|lia].
  rewrite Hl. destruct (snd (step F w o)); lia.
Qed.

Lemma local_step_memo o h h' m b env env' : local o = true ->
  exists b1 r, step F (World h b env) o = (World h b1 env, r) /\
    step F (World h' (memo m b) env') o = (World h' (memo m b1) env', r).
Proof.
  destruct o; simpl; try discriminate; intros _.
  - rewrite open_memo. destruct (open F d b); simpl; eauto.
  - rewrite open_with_memo. destruct (open_with F d sp b); simpl; eauto.
  - rewrite close_memo. destruct (close b); simpl; eauto.
  - rewrite token_memo. destruct (token F d len b); simpl; eauto.
  - unfold token_empty. rewrite token_memo. destruct (token F d len_EMPTY b); simpl; eauto.
  - rewrite token_with_memo. destruct (token_with F d sp b); simpl; eauto.
  - exists (set_cursor i b), RUnit. auto.
Qed.

Lemma sim_step names n w w' o : wok w -> sim names n w w' -> o <> OCheckpoint ->
  snd (step F w' (rename (named names n) o)) = snd (step F w o) /\
  sim names n (fst (step F w o)) (fst (step F w' (rename (named names n) o))).
Proof.
  intros Hw HS Ho. pose proof (full_grows w o Hw) as Hfull.
  destruct (local o) eqn:Hl.
  - assert (rename (named names n) o = o) as -> by (destruct o; auto; discriminate).
    destruct HS as [[m S1] S2 S3 S4 S5 S6 S7 S8]. destruct w as [h b env], w' as [h' b' env']. simpl in *. subst b'.
    destruct (local_step_memo o h h' m b env env' Hl) as (b1 & r & E1 & E2). rewrite E1, E2 in *. simpl in *.
    split; auto. constructor; simpl; eauto.
  - assert (CA : forall k d osp,
      (o = match osp with None => OCloseAt k d | Some sp => OCloseAtWith k d sp end) ->
      let st (w : world T) k := match nth_error (w_env w) k with None => (w, RNoHandle) | Some a =>
        let '(h, b, r) := close_at_gen F a d osp (w_heap w) (w_builder w) in (World h b (w_env w), out_node r) end in
      (is_full F (w_builder (fst (st w k))) = false -> is_full F (w_builder w) = false) ->
      snd (st w' (named names n k)) = snd (st w k) /\ sim names n (fst (st w k)) (fst (st w' (named names n k)))).
    { intros k d osp Eo st Hg. unfold st in *. clear st. destruct HS as [[m S1] S2 S3 S4 S5 S6 S7 S8].
      destruct (nth_error (w_env w) k) as [a|] eqn:Ek.
      2:{ rewrite (S7 k Ek). split; auto. constructor; eauto. }
      destruct (S5 k a Ek) as (a' & c & Ek' & Ec & Ec'). rewrite Ek'.
      destruct (close_at_memo d osp a a' c (w_heap w) (w_heap w') m (w_builder w) Ec Ec') as
        (h1 & h1' & b1 & r & c1 & E1 & E2 & R1 & R2).
      rewrite S1, E1, E2 in *. simpl in *. split; auto. constructor; simpl; eauto.
      intros k2 a2 Ek2. destruct (S5 k2 a2 Ek2) as (a2' & c2 & Ek2' & Ec2 & Ec2').
      destruct c1 as [c1|]; simpl in R1, R2; subst h1 h1'; [|eauto 6].
      exists a2'. pose proof (S8 _ _ _ _ _ _ Ek Ek2 Ek' Ek2') as Hal.
      destruct (Nat.eq_dec a a2) as [->|Hne].
      + assert (a' = a2') as -> by (apply Hal; auto). exists c1. rewrite !nth_upd, !Nat.eqb_refl, Ec2, Ec2'. auto.
      + exists c2. rewrite !nth_upd_other; auto. intros X. apply Hne, Hal. auto. }
    destruct o; simpl in Hl; try discriminate; try congruence.
    + exact (CA k d None eq_refl Hfull).
    + exact (CA k d (Some sp) eq_refl Hfull).
Qed.

(** [checkpoint] in one world: a cell for the current place. *)
Lemma checkpoint_shape w : wok w -> late w -> is_full F (w_builder w) = false ->
  exists a h m, step F w OCheckpoint = (World h (memo m (w_builder w)) (w_env w ++ [a]), RCheckpoint) /\
    nth_error h a = Some (Cell (tree_len (b_tree (w_builder w))) (b_parent (w_builder w))) /\
    (forall x c, nth_error (w_heap w) x = Some c -> nth_error h x = Some c) /\
    (forall x c, nth_error (w_heap w) x = Some c -> x = a ->
       c = Cell (tree_len (b_tree (w_builder w))) (b_parent (w_builder w))) /\
    (forall x, nth_error (w_heap w) x = Some (Cell (tree_len (b_tree (w_builder w))) (b_parent (w_builder w))) -> x = a).
Proof.
  intros Hw H Hfull. destruct w as [h b env]. simpl in *. unfold checkpoint. unfold is_full in Hfull.
  rewrite pointer_new_spec, Hfull. destruct H as [H1 H2]; simpl in *.
  assert (FR : (forall x c, nth_error h x = Some c -> c <> Cell (tree_len (b_tree b)) (b_parent b)) ->
    exists a h0 m, (World (h ++ [Cell (tree_len (b_tree b)) (b_parent b)]) (set_b_checkpoint (Some (length h)) b) (env ++ [length h]), RCheckpoint)
      = (World h0 (memo m b) (env ++ [a]), RCheckpoint) /\
      nth_error h0 a = Some (Cell (tree_len (b_tree b)) (b_parent b)) /\
      (forall x c, nth_error h x = Some c -> nth_error h0 x = Some c) /\
      (forall x c, nth_error h x = Some c -> x = a -> c = Cell (tree_len (b_tree b)) (b_parent b)) /\
      (forall x, nth_error h x = Some (Cell (tree_len (b_tree b)) (b_parent b)) -> x = a)).
  { intros Hno. do 3 eexists. split; [reflexivity|]. split; [|split; [|split]].
    - rewrite nth_error_app2, Nat.sub_diag by lia. auto.
    - intros x c E. rewrite nth_error_app1; auto. eapply nth_lt; eauto.
    - intros x c E ->. apply nth_lt in E. lia.
    - intros x E. exfalso. eapply Hno; eauto. }
  assert (ALL : forall x, nth_error h x = Some (Cell (tree_len (b_tree b)) (b_parent b)) -> b_checkpoint b = Some x).
  { intros x E. apply (H1 x _ E); auto. }
  destruct (b_checkpoint b) as [a|] eqn:Em.
  - destruct (nth_error h a) as [c|] eqn:Ec.
    + destruct (Nat.eqb_spec (c_node c) (tree_len (b_tree b))) as [Ec1|Ec1]; simpl.
      * destruct (opt_nat_eqb_spec (c_parent c) (b_parent b)) as [Ec2|Ec2]; simpl.
        -- exists a, h, (Some a). assert (c = Cell (tree_len (b_tree b)) (b_parent b)) as -> by (destruct c; simpl in *; congruence).
           split; [destruct b; simpl in *; subst; auto|]. split; auto. split; auto. split; [intros; congruence|].
           intros x E. apply ALL in E. congruence.
        -- apply FR. intros x cx E ->. pose proof (ALL x E) as X. injection X as ->. rewrite Ec in E. injection E as ->. simpl in *. congruence.
      * apply FR. intros x cx E ->. pose proof (ALL x E) as X. injection X as ->. rewrite Ec in E. injection E as ->. simpl in *. congruence.
    + apply FR. intros x cx E ->. pose proof (ALL x E) as X. injection X as ->. congruence.
  - apply FR. intros x cx E ->. apply ALL in E. discriminate.
Qed.

Lemma checkpoint_full w : is_full F (w_builder w) = true -> step F w OCheckpoint = (w, RErr Overflow).
Proof.
  intros E. destruct w as [h b env]. simpl in *. unfold checkpoint. unfold is_full in E. rewrite pointer_new_spec, E. auto.
Qed.

Lemma full_memo m b : is_full F (memo m b) = is_full F b.
Proof. reflexivity. Qed.

(** An extra checkpoint. *)
Lemma sim_extra names n w w' : wok w' -> late w' -> sim names n w w' ->
  sim names (S n) w (fst (step F w' OCheckpoint)).
Proof.
  intros Hw' Hl' [[m S1] S2 S3 S4 S5 S6 S7 S8].
  destruct (is_full F (w_builder w')) eqn:Ef.
  - rewrite checkpoint_full by auto. simpl. rewrite S1, full_memo in Ef.
    assert (NM : forall k, k < length (w_env w) -> named names (S n) k = named names n k).
    { intros k Hk. unfold named. apply nth_indep. lia. }
    constructor; eauto.
    + rewrite Ef. discriminate.
    + intros k a Ek. rewrite NM by (eapply nth_lt; eauto). eauto.
    + eapply Forall_impl; [|exact S6]. simpl. lia.
    + intros k Ek. unfold named. destruct (Nat.lt_ge_cases k (length names)) as [Hk|Hk].
      * rewrite (nth_indep _ _ (n + k)) by auto. apply (S7 k Ek).
      * apply nth_error_None. rewrite nth_overflow by auto. lia.
    + intros k1 k2 a1 a2 a1' a2' E1 E2. rewrite !NM by (eapply nth_lt; eauto). eauto.
  - destruct (checkpoint_shape w' Hw' Hl' Ef) as (a & h & m' & E & Ea & Hk & _ & _). rewrite E. simpl.
    rewrite S1, full_memo in Ef. destruct (S4 Ef) as [L1 L2].
    assert (NM : forall k, k < length (w_env w) -> named names (S n) k = named names n k).
    { intros k Hlk. unfold named. apply nth_indep. lia. }
    assert (OLD : forall k, k < length (w_env w) -> nth_error (w_env w' ++ [a]) (named names (S n) k) = nth_error (w_env w') (named names n k)).
    { intros k Hlk. rewrite NM by auto. apply nth_error_app1. unfold named. rewrite L2.
      rewrite Forall_forall in S6. apply S6. apply nth_In. lia. }
    constructor; simpl; auto.
    + exists m'. rewrite S1. auto.
    + rewrite app_length. simpl. lia.
    + rewrite app_length. simpl. lia.
    + intros k x Ek. rewrite OLD by (eapply nth_lt; eauto). destruct (S5 k x Ek) as (a' & c & X1 & X2 & X3). eauto 6.
    + eapply Forall_impl; [|exact S6]. simpl. lia.
    + intros k Ek. apply nth_error_None. rewrite app_length. simpl. unfold named.
      apply nth_error_None in Ek. rewrite nth_overflow by lia. lia.
    + intros k1 k2 a1 a2 a1' a2' E1 E2. rewrite !OLD by (eapply nth_lt; eauto). eauto.
Qed.

(** A checkpoint taken in both worlds. *)
Lemma sim_both names n w w' : wok w -> late w -> wok w' -> late w' -> sim names n w w' ->
  snd (step F w' OCheckpoint) = snd (step F w OCheckpoint) /\
  sim (names ++ [n]) (S n) (fst (step F w OCheckpoint)) (fst (step F w' OCheckpoint)).
Proof.
  intros Hw Hl Hw' Hl' HS. pose proof HS as [[m S1] S2 S3 S4 S5 S6 S7 S8].
  assert (EF : is_full F (w_builder w') = is_full F (w_builder w)) by (rewrite S1; apply full_memo).
  assert (SL : Forall (fun j => j < S n) (names ++ [n])).
  { apply Forall_app. split; [eapply Forall_impl; [|exact S6]; simpl; lia|constructor; auto]. }
  assert (NM : forall k, k < length names -> named (names ++ [n]) (S n) k = named names n k).
  { intros k Hk. unfold named. rewrite app_nth1 by auto. apply nth_indep. auto. }
  destruct (is_full F (w_builder w)) eqn:Ef.
  - rewrite !checkpoint_full by (rewrite ?EF; auto). simpl. split; auto.
    constructor; eauto.
    + rewrite app_length. lia.
    + rewrite Ef. discriminate.
    + intros k a Ek. rewrite NM by (apply nth_lt in Ek; lia). eauto.
    + intros k Ek. destruct (Nat.lt_ge_cases k (length names)) as [Hk|Hk].
      * rewrite NM by auto. auto.
      * apply nth_error_None. unfold named. rewrite app_nth2 by auto. destruct (k - length names) as [|j]; simpl; auto.
        destruct j; lia.
    + intros k1 k2 a1 a2 a1' a2' E1 E2. rewrite !NM by (apply nth_lt in E1, E2; lia). eauto.
  - destruct (checkpoint_shape w Hw Hl Ef) as (a & h & m1 & E & Ea & Hk & Hc & Hu).
    destruct (checkpoint_shape w' Hw' Hl' EF) as (a' & h' & m2 & E' & Ea' & Hk' & Hc' & Hu').
    rewrite E, E'. simpl. split; auto. destruct (S4 eq_refl) as [L1 L2].
    assert (PL : Cell (tree_len (b_tree (w_builder w'))) (b_parent (w_builder w')) =
                 Cell (tree_len (b_tree (w_builder w))) (b_parent (w_builder w))) by (rewrite S1; auto).
    rewrite PL in *.
    assert (OLD : forall k, k < length (w_env w) -> nth_error (w_env w' ++ [a']) (named (names ++ [n]) (S n) k) = nth_error (w_env w') (named names n k)).
    { intros k Hlk. rewrite NM by lia. apply nth_error_app1. unfold named. rewrite L2.
      rewrite Forall_forall in S6. apply S6. apply nth_In. lia. }
    assert (NEW : nth_error (w_env w' ++ [a']) (named (names ++ [n]) (S n) (length (w_env w))) = Some a').
    { unfold named. rewrite L1, app_nth2, Nat.sub_diag by lia. simpl. rewrite nth_error_app2, L2, Nat.sub_diag by lia. auto. }
    assert (CASES : forall k x, nth_error (w_env w ++ [a]) k = Some x ->
       (k < length (w_env w) /\ nth_error (w_env w) k = Some x) \/ (k = length (w_env w) /\ x = a)).
    { intros k x Ek. destruct (Nat.lt_ge_cases k (length (w_env w))) as [Hlk|Hlk].
      - left. rewrite nth_error_app1 in Ek by auto. auto.
      - right. assert (k = length (w_env w)) as -> by (apply nth_lt in Ek; rewrite app_length in Ek; simpl in Ek; lia).
        rewrite nth_error_app2, Nat.sub_diag in Ek by lia. simpl in Ek. split; congruence. }
    (* an old handle is in the new cell on one side iff it is on the other *)
    assert (SAME : forall k x x', nth_error (w_env w) k = Some x -> nth_error (w_env w') (named names n k) = Some x' ->
       (x = a <-> x' = a')).
    { intros k x x' Ex Ex'. destruct (S5 k x Ex) as (x2 & c & Y1 & Y2 & Y3). rewrite Ex' in Y1. injection Y1 as <-.
      split; intros ->.
      - apply Hu'. rewrite Y3. f_equal. eapply Hc; eauto.
      - apply Hu. rewrite Y2. f_equal. eapply Hc'; eauto. }
    constructor; simpl; auto.
    + exists m2. rewrite S1. auto.
    + rewrite !app_length. simpl. lia.
    + rewrite app_length. simpl. lia.
    + intros _. rewrite !app_length. simpl. lia.
    + intros k x Ek. destruct (CASES k x Ek) as [[Hlk Ex]|[-> ->]].
      * rewrite OLD by auto. destruct (S5 k x Ex) as (x' & c & Y1 & Y2 & Y3). exists x', c. auto.
      * rewrite NEW. exists a'; eexists. split; [reflexivity|]. split; [exact Ea|exact Ea'].
    + intros k Ek. apply nth_error_None. apply nth_error_None in Ek. rewrite app_length in Ek |- *. simpl in *.
      unfold named. rewrite nth_overflow by (rewrite app_length; simpl; lia). lia.
    + intros k1 k2 a1 a2 a1' a2' E1 E2. destruct (CASES k1 a1 E1) as [[L3 X1]|[-> ->]], (CASES k2 a2 E2) as [[L4 X2]|[-> ->]];
        rewrite ?NEW, ?OLD by auto.
      * eauto.
      * intros Y1 Y2. injection Y2 as <-. exact (SAME _ _ _ X1 Y1).
      * intros Y1 Y2. injection Y1 as <-. pose proof (SAME _ _ _ X2 Y2) as [G1 G2]. split; intros X; symmetry; auto.
      * intros Y1 Y2. split; congruence.
Qed.

Lemma sim_run l : forall names n w w', wok w -> late w -> wok w' -> late w' -> sim names n w w' ->
  kept_results l (snd (run F w' (with_extra names n l))) = snd (run F w (without_extra l)) /\
  exists m, w_builder (fst (run F w' (with_extra names n l))) = memo m (w_builder (fst (run F w (without_extra l)))).
Proof.
  induction l as [|x l IH]; intros names n w w' Hw Hl Hw' Hl' HS; [simpl; split; auto; apply (sm_b _ _ _ _ HS)|].
  assert (KEEP : forall o, o <> OCheckpoint ->
     kept_results (Kept o :: l) (snd (run F w' (rename (named names n) o :: with_extra names n l))) = snd (run F w (o :: without_extra l)) /\
     exists m, w_builder (fst (run F w' (rename (named names n) o :: with_extra names n l))) = memo m (w_builder (fst (run F w (o :: without_extra l))))).
  { intros o Ho. destruct (sim_step names n w w' o Hw HS Ho) as [E1 E2].
    pose proof (proj1 (step_ok F HF w o Hw)) as Hw1. pose proof (late_step w o Hw Hl) as Hl1.
    pose proof (proj1 (step_ok F HF w' (rename (named names n) o) Hw')) as Hw1'. pose proof (late_step w' (rename (named names n) o) Hw' Hl') as Hl1'.
    cbn [run]. destruct (step F w o) as [w1 r1], (step F w' (rename (named names n) o)) as [w1' r1']. simpl in *.
    destruct (IH names n w1 w1' Hw1 Hl1 Hw1' Hl1' E2) as [I1 I2].
    destruct (run F w1 (without_extra l)) as [w2 rs], (run F w1' (with_extra names n l)) as [w2' rs']. simpl in *. split; auto. congruence. }
  destruct x as [o|].
  - destruct o; try (refine (KEEP _ _); discriminate).
    destruct (sim_both names n w w' Hw Hl Hw' Hl' HS) as [E1 E2].
    pose proof (proj1 (step_ok F HF w OCheckpoint Hw)) as Hw1. pose proof (late_step w OCheckpoint Hw Hl) as Hl1.
    pose proof (proj1 (step_ok F HF w' OCheckpoint Hw')) as Hw1'. pose proof (late_step w' OCheckpoint Hw' Hl') as Hl1'.
    cbn [run with_extra without_extra]. destruct (step F w OCheckpoint) as [w1 r1], (step F w' OCheckpoint) as [w1' r1']. simpl in E1, E2, Hw1, Hl1, Hw1', Hl1'.
    destruct (IH _ _ w1 w1' Hw1 Hl1 Hw1' Hl1' E2) as [I1 I2].
    destruct (run F w1 (without_extra l)) as [w2 rs], (run F w1' (with_extra (names ++ [n]) (S n) l)) as [w2' rs']. simpl in *. split; auto. congruence.
  - pose proof (sim_extra names n w w' Hw' Hl' HS) as E2.
    pose proof (proj1 (step_ok F HF w' OCheckpoint Hw')) as Hw1'. pose proof (late_step w' OCheckpoint Hw' Hl') as Hl1'.
    cbn [run with_extra without_extra]. destruct (step F w' OCheckpoint) as [w1' r1']. simpl in E2, Hw1', Hl1'.
    destruct (IH _ _ w w1' Hw Hl Hw1' Hl1' E2) as [I1 I2].
    destruct (run F w1' (with_extra names (S n) l)) as [w2' rs']. simpl in *. auto.
Qed.

Lemma late_run ops : forall w, wok w -> late w -> late (fst (run F w ops)).
Proof.
  induction ops as [|o ops IH]; intros w Hw Hl; auto. simpl.
  pose proof (late_step w o Hw Hl) as Hl1. pose proof (proj1 (step_ok F HF w o Hw)) as Hw1.
  destruct (step F w o) as [w1 r]. simpl in *. specialize (IH w1 Hw1 Hl1). destruct (run F w1 ops). auto.
Qed.
End Sim.
