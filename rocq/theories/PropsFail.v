(** C40: storages whose push fails. *)
From Coq Require Import Lia.
From Verif Require Import Base Pointer Index Tree Builder Hist Node Iter Query Edit Spec SpecEmpty SpecFail
  Rep Refine Bounds AllHist StepFacts Spanless PropsArith PropsSafe.

Section Fail.
Context {T : Type}.
Variable F : flavor.
Hypothesis HF : vec_flavor F.
Implicit Types (b : builder T) (w : world T) (o : op T).
Notation L := (faulty F LinkFault).
Notation X := (faulty F IndexFault).

Lemma push_link (l : links T) t : tree_push L l t = None.
Proof. unfold tree_push, storage_push. simpl. destruct (length (t_nodes t)); reflexivity. Qed.
Lemma push_x ix id (t : tree T) : tree_push_index X ix id t = None.
Proof. unfold tree_push_index, storage_push. simpl. destruct (length (t_indexes t)); reflexivity. Qed.
Lemma insert_link b d sp :
  (is_full F b = true /\ insert L d sp b = (b, Err Overflow)) \/
  (is_full F b = false /\ insert L d sp b = (set_b_sibling None b, Err FlavorError)).
Proof.
  unfold insert. change (pointer_new L) with (pointer_new F). rewrite pointer_new_full. unfold is_full. destruct (_ <=? _)%N; auto.
Qed.
Lemma opt_eqb_eq (a b : option nat) : opt_nat_eqb a b = true -> a = b.
Proof. unfold opt_nat_eqb. destruct a, b; try discriminate; auto. intros E. apply Nat.eqb_eq in E. congruence. Qed.

(** What a token has done to the builder before the node is pushed. *)
Definition moved o b : builder T :=
  match o with
  | OToken _ len =>
      if len_is_empty F len then b
      else match ix_checked_add_len F (b_cursor b) len with
           | Some c => set_b_tree (set_t_span (set_end (t_span (b_tree b)) c) (b_tree b)) (set_b_cursor c b)
           | None => b
           end
  | _ => b
  end.
Definition lost o w : world T := World (w_heap w) (set_b_sibling None (moved o (w_builder w))) (w_env w).

Lemma moved_full o b : is_full F (moved o b) = is_full F b.
Proof. destruct o; auto. simpl. destruct (len_is_empty F len); auto. destruct (ix_checked_add_len _ _ _); auto. Qed.

(** The outcome of a close_at when the storage of nodes refuses. *)
Lemma close_at_link h b a c d osp : ok h b -> nth_error h a = Some c ->
  (exists e, close_at_gen F a d osp h b = (h, b, Err e) /\ close_at_gen L a d osp h b = (h, b, Err e)) \/
  (exists b', close_at_gen F a d osp h b = (h, b', Ok (tree_len (b_tree b))) /\
      close_at_gen L a d osp h b = (h, set_b_sibling None b, Err FlavorError)) \/
  (exists h' b' b'' l, close_at_gen F a d osp h b = (h', b', Ok (tree_len (b_tree b))) /\
      nth_error (t_nodes (b_tree b')) (tree_len (b_tree b)) = Some l /\ l_first l = Some (c_node c) /\
      close_at_gen L a d osp h b = (h, b'', Err FlavorError)).
Proof.
  intros H Ea.
  destruct (close_at_cases F HF h b a c d osp H Ea) as [(e & E & He)|[(b' & E & HI)|(l & h' & b' & Hp & El & E & HW)]].
  - left. exists e. split; auto. unfold close_at_gen. rewrite Ea. change (pointer_new L) with (pointer_new F).
    destruct He as [[-> Hn]|(-> & Hp & Hn)].
    + destruct (opt_nat_eqb (c_parent c) (b_parent b)) eqn:Eo; [|auto]. apply opt_eqb_eq in Eo. congruence.
    + rewrite Hn. unfold close_at_gen in E. rewrite Ea, Hn in E. destruct (negb _); [discriminate|auto].
  - right. left. eexists. split; [exact E|].
    revert E. unfold close_at_gen. rewrite Ea. change (pointer_new L) with (pointer_new F).
    destruct (negb _); [discriminate|]. destruct (pointer_new F (tree_len (b_tree b))) as [n|] eqn:En; [|discriminate].
    destruct (nth_error _ (c_node c)) as [l|].
    + cbv zeta. destruct (match l_next l with Some _ => _ | None => _ end) as [m [[last e]|e|]]; [|discriminate..].
      rewrite (push_vec F _ _ HF). intros E. exfalso. injection E as _ E _. destruct HI as ((HL & _ & HN) & _).
      set (t := if opt_nat_eqb _ _ then _ else _) in E.
      assert (Et : t_nodes (b_tree b') = t_nodes t ++ [Links d (match osp with Some sp => sp | None => Span (s_start (l_span l)) e end)
         (l_parent l) (l_prev l) None (Some (c_node c)) (Some last)]) by (rewrite <- E; reflexivity).
      assert (Hlen : length (t_nodes t) = length (t_nodes (b_tree b))) by (rewrite Et, app_length in HL; simpl in HL; lia).
      assert (Eln : nth_error (t_nodes (b_tree b')) (length (t_nodes (b_tree b))) = Some (Links d (match osp with Some sp => sp | None => Span (s_start (l_span l)) e end)
         (l_parent l) (l_prev l) None (Some (c_node c)) (Some last))).
      { rewrite Et, nth_error_app2 by lia. rewrite Hlen, Nat.sub_diag. auto. }
      apply HN in Eln. destruct Eln as (_ & _ & _ & Hfirst & _). discriminate.
    + intros _. set (sp := match osp with Some sp => sp | None => span_point (b_cursor b) end).
      destruct (insert_link b d sp) as [[Hf ->]|[Hf ->]]; [|auto].
      rewrite pointer_new_full in En. unfold is_full in Hf. rewrite Hf in En. discriminate.
  - right. right. destruct HW as (C & z & _ & (HL & _ & HN) & _).
    destruct (nth_in (t_nodes (b_tree b')) (length (t_nodes (b_tree b)))) as [ln Eln]; [lia|].
    assert (Q : exists b'', close_at_gen L a d osp h b = (h, b'', Err FlavorError)).
    { revert E. unfold close_at_gen. rewrite Ea. change (pointer_new L) with (pointer_new F).
      destruct (negb _); [discriminate|]. destruct (pointer_new F (tree_len (b_tree b))) as [n|] eqn:En; [|discriminate].
      rewrite El. cbv zeta. destruct (match l_next l with Some _ => _ | None => _ end) as [m [[last e]|e|]]; [|discriminate..].
      intros _. rewrite push_link. eexists. reflexivity. }
    destruct Q as [b'' Q]. exists h', b', b'', ln. split; [exact E|]. split; [exact Eln|]. split; [apply (HN ln Eln)|exact Q].
Qed.

(** What a failing push of a node does to a call. *)
Lemma link_step w o : wok w ->
  (exists id, snd (step F w o) = RNode id /\ snd (step L w o) = RErr FlavorError /\
     (wraps F w o \/ fst (step L w o) = lost o w)) \/
  ((forall id, snd (step F w o) <> RNode id) /\ step L w o = step F w o).
Proof.
  intros [H He]. destruct w as [h b env]. cbn [w_heap w_builder w_env] in *.
  assert (I : forall d sp b0, is_full F b0 = is_full F b ->
    (insert F d sp b0 = (b0, Err Overflow) /\ insert L d sp b0 = (b0, Err Overflow)) \/
    exists b' id, insert F d sp b0 = (b', Ok id) /\ insert L d sp b0 = (set_b_sibling None b0, Err FlavorError)).
  { intros d sp b0 Eb. destruct (insert_vec F HF b0 d sp) as [[E1 ->]|(E1 & b' & -> & _)], (insert_link b0 d sp) as [[E2 ->]|[E2 ->]];
      try congruence; auto. right. eauto. }
  assert (TK : forall d len, let o' := OToken d len in
    (exists b' id, token F d len b = (b', Ok id) /\ token L d len b = (set_b_sibling None (moved o' b), Err FlavorError)) \/
    (snd (token F d len b) = Err Overflow /\ token L d len b = token F d len b)).
  { intros d len. cbv zeta. rewrite !token_cases. cbn [moved].
    change (len_is_empty L len) with (len_is_empty F len). change (ix_checked_add_len L (b_cursor b) len) with (ix_checked_add_len F (b_cursor b) len).
    assert (R : forall sp b0, is_full F b0 = is_full F b ->
      (exists b' id, token_rest F d sp len b0 = (b', Ok id) /\ token_rest L d sp len b0 = (set_b_sibling None b0, Err FlavorError)) \/
      (snd (token_rest F d sp len b0) = Err Overflow /\ token_rest L d sp len b0 = token_rest F d sp len b0)).
    { intros sp b0 Eb. unfold token_rest. destruct (I d sp b0 Eb) as [[-> ->]|(b' & id & -> & ->)]; [right; auto|left].
      cbv zeta. destruct (len_is_empty F len); [eauto|].
      destruct (push_index_vec F (b_cursor (set_b_sibling (Some id) b')) id (b_tree (set_b_sibling (Some id) b')) HF) as [ls ->]. eauto. }
    destruct (len_is_empty F len) eqn:El; [apply R; auto|].
    destruct (ix_checked_add_len F (b_cursor b) len) as [c|]; [|right; auto]. apply R. reflexivity. }
  assert (CA : forall k d osp, let st G := match nth_error env k with None => (World h b env, RNoHandle)
      | Some a => let '(h, b, r) := close_at_gen G a d osp h b in (World h b env, out_node r) end in
    (forall F', st F' = step F' (World h b env) o) -> moved o b = b ->
    (exists id, snd (step F (World h b env) o) = RNode id /\ snd (step L (World h b env) o) = RErr FlavorError /\
     (wraps F (World h b env) o \/ fst (step L (World h b env) o) = lost o (World h b env))) \/
    ((forall id, snd (step F (World h b env) o) <> RNode id) /\ step L (World h b env) o = step F (World h b env) o)).
  { intros k d osp st Est Hm. unfold wraps. rewrite <- !Est. unfold st. clear Est st.
    destruct (nth_error env k) as [a|] eqn:Ek; [|right; split; [discriminate|auto]].
    destruct (nth_in h a) as [c Ec]; [apply He; eapply nth_error_In; eauto|].
    destruct (close_at_link h b a c d osp H Ec) as [(e & -> & ->)|[(b' & -> & ->)|(h' & b' & b'' & l & -> & E1 & E2 & ->)]].
    - right. split; [discriminate|auto].
    - left. eexists. split; [reflexivity|]. split; [reflexivity|]. right. unfold lost. simpl. rewrite Hm. auto.
    - left. eexists. split; [reflexivity|]. split; [reflexivity|]. left. do 2 eexists. split; [reflexivity|].
      cbn [fst w_builder]. unfold tree_get, node_at. rewrite E1. split; [reflexivity|]. unfold has_children. simpl. rewrite E2. auto. }
  destruct o; cbn [step w_heap w_builder w_env].
  - unfold open. destruct (I d (span_point (b_cursor b)) b eq_refl) as [[-> ->]|(b' & id & -> & ->)]; [right; split; auto; discriminate|left].
    eexists. split; [reflexivity|]. split; [reflexivity|]. right. reflexivity.
  - unfold open_with. destruct (I d sp b eq_refl) as [[-> ->]|(b' & id & -> & ->)]; [right; split; auto; discriminate|left].
    eexists. split; [reflexivity|]. split; [reflexivity|]. right. reflexivity.
  - right. split; [|auto]. intros id. destruct (close b) as [? [|e|]]; discriminate.
  - destruct (TK d len) as [(b' & id & -> & ->)|[E ->]].
    + left. eexists. split; [reflexivity|]. split; [reflexivity|]. right. reflexivity.
    + right. split; auto. destruct (token F d len b). cbn [snd] in *. subst. discriminate.
  - destruct (TK d len_EMPTY) as [(b' & id & E1 & E2)|[E E2]]; unfold token_empty.
    + rewrite E1, E2. left. eexists. split; [reflexivity|]. split; [reflexivity|]. right. unfold lost. simpl.
      unfold moved, len_is_empty, len_EMPTY. destruct (fl_index F); reflexivity.
    + rewrite E2. right. split; auto. destruct (token F d len_EMPTY b). cbn [snd] in *. subst. discriminate.
  - unfold token_with. destruct (I d sp b eq_refl) as [[-> ->]|(b' & id & -> & ->)]; [right; split; auto; discriminate|left].
    cbv zeta. cbn [b_tree set_b_sibling]. destruct (push_index_vec F (s_start sp) id (b_tree b') HF) as [ls ->].
    eexists. split; [reflexivity|]. split; [reflexivity|]. right. reflexivity.
  - right. split; [|auto]. intros id. destruct (checkpoint F h b) as [[? ?] [|e|]]; discriminate.
  - apply (CA k d None); auto.
  - apply (CA k d (Some sp)); auto.
  - right. split; [discriminate|auto].
Qed.

(** What a failing push of an index entry does to a call. *)
Lemma index_step w o :
  step X w o = step F w o \/
  exists id, snd (step F w o) = RNode id /\ snd (step X w o) = RErr FlavorError /\
    w_heap (fst (step X w o)) = w_heap (fst (step F w o)) /\ w_env (fst (step X w o)) = w_env (fst (step F w o)) /\
    bsame (w_builder (fst (step X w o))) (w_builder (fst (step F w o))) /\
    t_indexes (b_tree (w_builder (fst (step X w o)))) = t_indexes (b_tree (w_builder w)).
Proof.
  destruct w as [h b env]. cbn [w_builder].
  assert (Refl : forall b, bsame b b).
  { intros b0. unfold bsame, tsame. split; [|auto]. split; [|auto]. unfold nsame. induction (t_nodes (b_tree b0)); constructor; auto. unfold lsame; auto 10. }
  assert (IX : forall b d sp, t_indexes (b_tree (fst (insert F d sp b))) = t_indexes (b_tree b)).
  { clear. intros b d sp. unfold insert. destruct (pointer_new _ _); [|auto]. cbv zeta. unfold tree_push. destruct (storage_push _ _ _); [|auto].
    cbn [option_map fst b_tree set_b_tree set_b_sibling b_parent]. destruct (b_parent b), (b_sibling b); simpl; auto; destruct (t_first (b_tree b)); auto. }
  assert (TK : forall d len, token X d len b = token F d len b \/
    exists b1 b2 id, token F d len b = (b1, Ok id) /\ token X d len b = (b2, Err FlavorError) /\ bsame b2 b1 /\
      t_indexes (b_tree b2) = t_indexes (b_tree b)).
  { intros d len. rewrite !token_cases. change (len_is_empty X len) with (len_is_empty F len).
    change (ix_checked_add_len X (b_cursor b) len) with (ix_checked_add_len F (b_cursor b) len).
    assert (R : forall sp b0, t_indexes (b_tree b0) = t_indexes (b_tree b) -> token_rest X d sp len b0 = token_rest F d sp len b0 \/
      exists b1 b2 id, token_rest F d sp len b0 = (b1, Ok id) /\ token_rest X d sp len b0 = (b2, Err FlavorError) /\ bsame b2 b1 /\
      t_indexes (b_tree b2) = t_indexes (b_tree b)).
    { intros sp b0 E0. unfold token_rest. change (insert X d sp b0) with (insert F d sp b0). change (len_is_empty X len) with (len_is_empty F len).
      pose proof (IX b0 d sp) as E. destruct (insert F d sp b0) as [b' [id|e|]]; auto. cbv zeta. destruct (len_is_empty F len); auto. rewrite push_x.
      destruct (push_index_vec F (b_cursor (set_b_sibling (Some id) b')) id (b_tree (set_b_sibling (Some id) b')) HF) as [ls ->].
      right. do 3 eexists. split; [reflexivity|]. split; [reflexivity|]. split; [apply (Refl (set_b_sibling (Some id) b'))|]. simpl in *. congruence. }
    destruct (len_is_empty F len); [apply R; auto|]. destruct (ix_checked_add_len F (b_cursor b) len) as [c|]; [|auto]. apply R. auto. }
  destruct o; auto; cbn [step w_heap w_builder w_env].
  - destruct (TK d len) as [->|(b1 & b2 & id & -> & -> & A & B)]; [auto|]. right. exists id. simpl. auto 10.
  - destruct (TK d len_EMPTY) as [E|(b1 & b2 & id & E1 & E2 & A & B)]; unfold token_empty; [rewrite E; auto|]. rewrite E1, E2.
    right. exists id. simpl. auto 10.
  - unfold token_with. change (insert X d sp b) with (insert F d sp b). pose proof (IX b d sp) as E.
    destruct (insert F d sp b) as [b' [id|e|]]; auto. cbv zeta. rewrite push_x. cbn [b_tree set_b_sibling b_parent fst] in *.
    destruct (push_index_vec F (s_start sp) id (b_tree b') HF) as [ls ->]. right. exists id. simpl.
    repeat (split; [reflexivity|]). split; [|auto]. unfold bsame; simpl. split; [|auto].
    assert (Ts : tsame (b_tree b') (set_t_indexes ls (b_tree b'))) by apply (Refl b').
    destruct (b_parent b') as [q|]; [|exact Ts]. unfold tsame in *. simpl in *. split; [|auto].
    clear. revert q. unfold nsame. induction (t_nodes (b_tree b')) as [|l ns IH]; intros q; destruct q; simpl; constructor;
      try apply IH; try (unfold lsame; simpl; auto 10; fail).
    clear. induction ns; constructor; auto. unfold lsame; auto 10.
Qed.

Lemma bsame_ok h b c : bsame b c -> ok h c -> ok h b.
Proof.
  intros ((N & E1 & E2) & _ & E3 & E4) H. apply (ok_ext h c b H); auto.
  split; [apply nsame_len; auto|]. intros i l' E. destruct (nsame_nth _ _ i N) as [[E0 _]|(l & m & El & Em & Hl)]; [congruence|].
  assert (l = l') by congruence. subst. exists m. split; auto. destruct Hl as (_ & A & B & C & D & G). unfold ptrs_eq. auto.
Qed.

Lemma lost_ok o w : wok w -> wok (lost o w).
Proof.
  intros [H He]. split; [|exact He]. unfold lost. cbn [w_heap w_builder].
  assert (H' : ok (w_heap w) (moved o (w_builder w))).
  { destruct o; auto. simpl. destruct (len_is_empty F len); auto. destruct (ix_checked_add_len _ _ _); auto.
    eapply ok_ext; [exact H|..]; auto. apply same_ptrs_refl. }
  destruct H' as (lo & hi & cap & stk & HB & HC). exists lo, hi, cap, stk. split; [|exact HC].
  destruct HB as [H1 H2 H3 H4 H5 H6]. constructor; auto. simpl. discriminate.
Qed.

(** Results of calls under faults. *)
Definition fine_or_flavor (r : out) : Prop := fine_out r \/ r = RErr FlavorError.

Lemma faulty_step w o f : wok w -> (f = LinkFault -> ~ wraps F w o) ->
  wok (fst (step (faulty F f) w o)) /\ fine_or_flavor (snd (step (faulty F f) w o)) /\
  tree_len (b_tree (w_builder (fst (step (faulty F f) w o)))) <= tree_len (b_tree (w_builder (fst (step F w o)))).
Proof.
  intros H Hc. unfold fine_or_flavor. destruct (step_ok F HF w o H) as [A B]. destruct f; [change (faulty F NoFault) with F|..].
  - auto.
  - destruct (link_step w o H) as [(id & E1 & E2 & [E3|E3])|[E1 E2]]; [exfalso; apply (Hc eq_refl E3)| |].
    + rewrite E2, E3. split; [apply lost_ok; auto|]. split; [auto|].
      assert (E : tree_len (b_tree (w_builder (lost o w))) = tree_len (b_tree (w_builder w))).
      { unfold lost. simpl. destruct o; auto. simpl. destruct (len_is_empty F len); auto. destruct (ix_checked_add_len _ _ _); auto. }
      rewrite E. pose proof (step_grows F HF w o B) as G. rewrite E1 in G. destruct G as (_ & d & _ & G).
      rewrite <- !len_datas. unfold w_datas in G. rewrite G, app_length. lia.
    + rewrite E2. auto.
  - destruct (index_step w o) as [E|(id & E1 & E2 & E3 & E4 & E5 & _)]; [rewrite E; auto|].
    rewrite E2. split; [|split; auto].
    + destruct A as [A1 A2]. split; [rewrite E3; eapply bsame_ok; eauto|rewrite E3, E4; auto].
    + rewrite (tsame_len _ _ (proj1 E5)). auto.
Qed.

Lemma step_size w o : wok w -> (N.of_nat (tree_len (b_tree (w_builder w))) <= int_max F (fl_width F))%N ->
  (N.of_nat (tree_len (b_tree (w_builder (fst (step F w o))))) <= int_max F (fl_width F))%N.
Proof.
  intros H HL. destruct (step_ok F HF w o H) as [_ Hf]. pose proof (step_grows F HF w o Hf) as G. pose proof (node_room T F w o) as R.
  rewrite <- len_datas in *. unfold w_datas in G. destruct (step F w o) as [w' r]. cbn [fst snd] in *.
  destruct r as [|id| | | |]; cbn [grows] in G; try (rewrite G; exact HL).
  destruct G as (-> & d & _ & G). rewrite G, app_length. specialize (R _ eq_refl). unfold is_full in R.
  rewrite <- len_datas in R. apply N.leb_gt in R. simpl. lia.
Qed.

Lemma faulty_run (l : list (op T * fault)) : forall w, wok w -> (N.of_nat (tree_len (b_tree (w_builder w))) <= int_max F (fl_width F))%N ->
  careful F w l ->
  wok (fst (run_faulty F w l)) /\ (N.of_nat (tree_len (b_tree (w_builder (fst (run_faulty F w l))))) <= int_max F (fl_width F))%N /\
  (forall r, In r (snd (run_faulty F w l)) -> fine_or_flavor r).
Proof.
  induction l as [|[o f] l IH]; intros w H HL Hc; [simpl; tauto|]. cbn [run_faulty]. cbn [careful] in Hc. destruct Hc as [C1 C2].
  destruct (faulty_step w o f H C1) as (A & B & D). pose proof (step_size w o H HL) as S.
  destruct (step (faulty F f) w o) as [w1 r1]. cbn [fst snd] in *.
  destruct (IH w1 A ltac:(lia) C2) as (E1 & E2 & E3). destruct (run_faulty F w1 l) as [w2 rs]. cbn [fst snd In] in *.
  split; [auto|]. split; [auto|]. intros r [<-|Hr]; auto.
Qed.

Lemma faulty_wok (l : list (op T * fault)) : careful F world_new l -> wok (faulty_world F l) /\
  (N.of_nat (tree_len (b_tree (w_builder (faulty_world F l)))) <= int_max F (fl_width F))%N /\
  (forall r, In r (faulty_outs F l) -> fine_or_flavor r).
Proof. apply faulty_run; [apply wok_new|simpl; lia]. Qed.
End Fail.

(** ** The failing call *)

(** Whenever the storage of nodes refuses during a call that would have added a node, the call
    returns [Error::Flavor]; a call that would not have added a node is not affected.
    From every state a careful history with faults reaches. *)
Theorem C40_reports : forall T F (l : list (op T * fault)) o, vec_flavor F -> careful F world_new l ->
  let w := faulty_world F l in
  (forall id, snd (step F w o) = RNode id -> snd (step (faulty F LinkFault) w o) = RErr FlavorError) /\
  ((forall id, snd (step F w o) <> RNode id) -> step (faulty F LinkFault) w o = step F w o).
Proof.
  intros T F l o HF Hc w. destruct (faulty_wok F HF l Hc) as [H _]. fold w in H. clearbody w.
  destruct (link_step F HF w o H) as [(id & E1 & E2 & _)|[E1 E2]]; split; auto.
  - intros X. exfalso. eapply X; eauto.
  - intros id E. exfalso. eapply E1; eauto.
Qed.
Print Assumptions C40_reports.

(** The failing call leaves every node, every link, the roots, the index, the open nodes and the
    checkpoints as they were, unless it was going to wrap nodes; but for a token of non-zero length
    also the cursor and the span of the tree.
    Missing from C40 (and false, see below): calls that wrap; tokens of non-zero length; a failing index
    storage; and what is built after the failure. *)
Theorem C40_intact_partial : forall T F (l : list (op T * fault)) o w', vec_flavor F -> careful F world_new l ->
  let w := faulty_world F l in
  ~ wraps F w o -> step (faulty F LinkFault) w o = (w', RErr FlavorError) ->
  same_nodes (b_tree (w_builder w)) (b_tree (w_builder w')) /\
  b_parent (w_builder w') = b_parent (w_builder w) /\ w_heap w' = w_heap w /\ w_env w' = w_env w /\
  (forall t, build (w_builder w) = Ok t -> exists t', build (w_builder w') = Ok t' /\ same_nodes t t') /\
  ((forall d len, o <> OToken d len) ->
     b_tree (w_builder w') = b_tree (w_builder w) /\ cursor (w_builder w') = cursor (w_builder w) /\
     build (w_builder w') = build (w_builder w)).
Proof.
  intros T F l o w' HF Hc w Hw E. destruct (faulty_wok F HF l Hc) as (H & _ & _). fold w in H. clearbody w.
  assert (E' : w' = lost F o w).
  { destruct (link_step F HF w o H) as [(id & E1 & E2 & [E3|E3])|[E1 E2]].
    - destruct (Hw E3).
    - rewrite E in E3. exact E3.
    - exfalso. rewrite E in E2. destruct (step_ok F HF w o H) as [_ G]. rewrite <- E2 in G. exact G. }
  assert (M : (forall d len, o <> OToken d len) -> moved F o (w_builder w) = w_builder w).
  { intros Hn. destruct o; auto. destruct (Hn d len eq_refl). }
  assert (S : same_nodes (b_tree (w_builder w)) (b_tree (w_builder w')) /\ b_parent (w_builder w') = b_parent (w_builder w)).
  { subst w'. unfold lost, same_nodes. cbn [w_builder]. destruct o; simpl; auto 10. destruct (len_is_empty F len); simpl; auto 10.
    destruct (ix_checked_add_len _ _ _); simpl; auto 10. }
  destruct S as [S1 S2]. split; [exact S1|]. split; [exact S2|]. split; [subst; reflexivity|]. split; [subst; reflexivity|]. split.
  - intros t Et. unfold build in *. rewrite S2. destruct (b_parent (w_builder w)); [discriminate|]. injection Et as <-. eauto.
  - intros Hn. subst w'. unfold lost, cursor, build. cbn [w_builder]. rewrite M by auto. simpl. auto.
Qed.
Print Assumptions C40_intact_partial.

(** When the storage of index entries refuses: the call returns [Error::Flavor], but the node is in the
    tree all the same, linked as if the call had succeeded; only its index entry is missing. *)
Theorem C40_index_partial : forall T F (w : world T) o, vec_flavor F ->
  step (faulty F IndexFault) w o = step F w o \/
  exists id, snd (step F w o) = RNode id /\ snd (step (faulty F IndexFault) w o) = RErr FlavorError /\
    same_structure (b_tree (w_builder (fst (step (faulty F IndexFault) w o)))) (b_tree (w_builder (fst (step F w o)))) /\
    t_indexes (b_tree (w_builder (fst (step (faulty F IndexFault) w o)))) = t_indexes (b_tree (w_builder w)).
Proof.
  intros T F w o HF. destruct (index_step F HF w o) as [E|(id & E1 & E2 & _ & _ & E5 & E6)]; [auto|]. right. exists id.
  split; [auto|]. split; [auto|]. split; [|auto]. apply same_structure_of. apply E5.
Qed.
Print Assumptions C40_index_partial.

(** ** Afterwards *)

(** As long as no wrapping call fails: whatever fails, and whatever is called afterwards, every call
    returns, every pointer stays inside the tree, and every iterator and search ends. *)
Theorem C40_safe_partial : forall T F (l : list (op T * fault)), vec_flavor F -> careful F world_new l ->
  let t := b_tree (w_builder (faulty_world F l)) in
  (forall r, In r (faulty_outs F l) ->
     match r with
     | RErr (MissingNode _) | RDiverge => False
     | _ => True
     end) /\
  links_in_bounds t /\
  forall i n, tree_get t i = Some n ->
    (fits F t -> every_iterator_ends F t n) /\
    (forall St p (st : St), exists st' o, find_preceding_mut (t_nodes t) p st n = Ok (st', o)) /\
    (forall bs s e, exists o, node_with_range F bs t s e = Ok o).
Proof.
  intros T F l HF Hc t. destruct (faulty_wok F HF l Hc) as (H & HL & HO). split; [|split; [apply wok_links; auto|]].
  - intros r Hr. destruct (HO r Hr) as [G| ->]; [|auto]. destruct r as [| | |[]| |]; auto.
  - intros i n E. split.
    + intros Hfit. apply (iterators_end T F (faulty_world F l) i n); auto. fold t.
      unfold tree_get, node_at in E. destruct (nth_error (t_nodes t) i) as [x|] eqn:El; [|discriminate]. injection E as <-.
      pose proof (fits_usize F _ Hfit) as HU. apply nth_lt in El. fold t in HL. unfold tree_len in HL.
      apply (node_id_spec F (i, x)); simpl; lia.
    + apply (searches_end T F (faulty_world F l) i); auto.
Qed.
Print Assumptions C40_safe_partial.

(** ** C40 as stated is false *)

(** A failing close_at leaves pointers to the node that was not added: the finished tree has a node but
    no roots, and the node claims a parent that does not exist. *)
Theorem C40_close_at_refuted : exists (l : list (op nat * fault)) t n,
  faulty_outs flavor_default l = [RCheckpoint; RNode 0; RErr FlavorError] /\
  build (w_builder (faulty_world flavor_default (firstn 2 l))) = Ok (b_tree (w_builder (faulty_world flavor_default (firstn 2 l)))) /\
  option_map view (tree_first (b_tree (w_builder (faulty_world flavor_default (firstn 2 l))))) = Some (0, 1, Span 0 1, false) /\
  build (w_builder (faulty_world flavor_default l)) = Ok t /\
  tree_len t = 1 /\ tree_first t = None /\ tree_get t 0 = Some n /\ l_parent (snd n) = Some 1.
Proof.
  exists [(OCheckpoint, NoFault); (OToken 1 1%N, NoFault); (OCloseAt 0 7, LinkFault)]. do 2 eexists.
  repeat (split; [vm_compute; reflexivity|]). vm_compute; reflexivity.
Qed.
Print Assumptions C40_close_at_refuted.

(** Trying again makes a node its own parent: [ancestors] never ends. *)
Theorem C40_cycle_refuted : exists (l : list (op nat * fault)) t n,
  faulty_outs flavor_default l = [RCheckpoint; RNode 0; RErr FlavorError; RNode 1] /\
  build (w_builder (faulty_world flavor_default l)) = Ok t /\ tree_get t 0 = Some n /\
  forall k, exists items, calls (total (ancestors_next (t_nodes t))) k (node_ancestors n) = Ok items /\
    length items = k /\ ~ In None items.
Proof.
  exists [(OCheckpoint, NoFault); (OToken 1 1%N, NoFault); (OCloseAt 0 7, LinkFault); (OCloseAt 0 7, NoFault)]. do 2 eexists.
  split; [vm_compute; reflexivity|]. split; [vm_compute; reflexivity|]. split; [vm_compute; reflexivity|].
  set (ns := t_nodes _). set (n0 := node_ancestors _).
  assert (N1 : exists n1, fst (ancestors_next ns n0) = Some n1 /\ snd (ancestors_next ns n0) <> None /\
     fst (ancestors_next ns (Some n1)) = Some n1 /\ snd (ancestors_next ns (Some n1)) <> None).
  { vm_compute. eexists. split; [reflexivity|]. split; [discriminate|]. split; [reflexivity|]. discriminate. }
  destruct N1 as (n1 & A & B & C & D). clearbody ns n0.
  assert (G : forall k, exists items, calls (total (ancestors_next ns)) k (Some n1) = Ok items /\ length items = k /\ ~ In None items).
  { induction k as [|k (items & I1 & I2 & I3)]; [exists []; simpl; auto|]. cbn [calls]. unfold total at 1.
    destruct (ancestors_next ns (Some n1)) as [s a]. cbn [fst snd] in *. subst s. rewrite I1. exists (a :: items). simpl.
    split; [auto|]. split; [auto|]. intros [X|X]; auto. }
  intros [|k]; [exists []; simpl; auto|]. cbn [calls]. unfold total at 1.
  destruct (ancestors_next ns n0) as [s a]. cbn [fst snd] in *. subst s. destruct (G k) as (items & I1 & I2 & I3). rewrite I1.
  exists (a :: items). simpl. split; [auto|]. split; [auto|]. intros [X|X]; auto.
Qed.
Print Assumptions C40_cycle_refuted.

(** After a failed open (or token) the next node of the level is not linked to its siblings: it is in the
    tree, but no walk and no iteration over the children finds it. *)
Theorem C40_sibling_refuted : exists (l : list (op nat * fault)) t,
  careful flavor_default world_new l /\
  faulty_outs flavor_default l = [RNode 0; RErr FlavorError; RNode 1] /\
  build (w_builder (faulty_world flavor_default l)) = Ok t /\
  tree_len t = 2 /\ option_map fst (tree_last t) = Some 1 /\
  calls (walk_next flavor_default (t_nodes t)) 2 (tree_walk t) = Ok [tree_get t 0; None] /\
  calls (total (children_next (t_nodes t))) 2 (tree_children t) = Ok [tree_get t 0; None].
Proof.
  exists [(OToken 1 1%N, NoFault); (OOpen 2, LinkFault); (OToken 3 1%N, NoFault)]. eexists.
  split; [split; [discriminate|]; split; [|split; [discriminate|exact I]]|].
  { intros _ (id & n & E1 & E2 & E3). vm_compute in E1. injection E1 as <-. vm_compute in E2. injection E2 as <-. discriminate. }
  repeat (split; [vm_compute; reflexivity|]). vm_compute; reflexivity.
Qed.
Print Assumptions C40_sibling_refuted.

(** A token whose index entry could not be stored was reported as failed, but is in the tree. *)
Theorem C40_index_refuted : exists (l : list (op nat * fault)) t,
  faulty_outs flavor_default l = [RNode 0; RErr FlavorError] /\
  build (w_builder (faulty_world flavor_default l)) = Ok t /\
  tree_len t = 2 /\ option_map view (tree_last t) = Some (1, 2, Span 1 2, false).
Proof.
  exists [(OToken 1 1%N, NoFault); (OToken 2 1%N, IndexFault)]. eexists.
  repeat (split; [vm_compute; reflexivity|]). vm_compute; reflexivity.
Qed.
Print Assumptions C40_index_refuted.

(** A token that could not be stored moved the cursor and the end of the tree's span. *)
Theorem C40_token_refuted : exists (l : list (op nat * fault)),
  faulty_outs flavor_default l = [RNode 0; RErr FlavorError] /\
  cursor (w_builder (faulty_world flavor_default (firstn 1 l))) = 1%N /\
  cursor (w_builder (faulty_world flavor_default l)) = 4%N /\
  t_span (b_tree (w_builder (faulty_world flavor_default l))) = Span 0 4.
Proof.
  exists [(OToken 1 1%N, NoFault); (OToken 2 3%N, LinkFault)].
  repeat (split; [vm_compute; reflexivity|]). vm_compute; reflexivity.
Qed.
Print Assumptions C40_token_refuted.

(** The hypotheses are met: a careful history with faults of both kinds, one of them in a level that
    already has nodes. *)
Example C40_inhabited :
  let l := [(OOpen 1, NoFault); (OToken 2 3%N, NoFault); (OOpenWith 3 (Span 3 3), LinkFault); (OToken 4 2%N, IndexFault);
            (OCheckpoint, LinkFault); (OTokenEmpty 5, NoFault); (OCloseAt 0 6, NoFault); (OClose, LinkFault)] in
  careful flavor_default world_new l /\
  faulty_outs flavor_default l = [RNode 0; RNode 1; RErr FlavorError; RErr FlavorError; RCheckpoint; RNode 3; RNode 4; RUnit] /\
  wraps flavor_default (faulty_world flavor_default (firstn 6 l)) (OCloseAt 0 6).
Proof.
  cbv zeta. split; [|split; [vm_compute; reflexivity|]].
  - cbn [careful]. repeat (split; [try discriminate; intros _ (id & n & E1 & E2 & E3); vm_compute in E1; try discriminate;
      injection E1 as <-; vm_compute in E2; injection E2 as <-; discriminate|]). exact I.
  - eexists. eexists. split; [vm_compute; reflexivity|]. split; [vm_compute; reflexivity|]. reflexivity.
Qed.

(** ** Modify *)
Section Limited.
Context {T : Type}.
Variable F : flavor.
Hypothesis HS : fl_storage F = SVec.
Hypothesis HI : fl_indexes F = SVec.
Variables cap icap : nat.
Notation G := (limited F cap icap).
Definition holds (o : tree T) : bool := (tree_len o <=? cap) && (length (t_indexes o) <=? icap).

Lemma emit_limited (r : refactor T) o cur id n first r' o' c' : emit F r o cur id n first = ((r', o', c'), Ok tt) ->
  tree_len o' = S (tree_len o) /\ length (t_indexes o) <= length (t_indexes o') /\
  (holds o' = true -> emit G r o cur id n first = ((r', o', c'), Ok tt)) /\
  (holds o = true -> holds o' = false -> snd (emit G r o cur id n first) = Err FlavorError).
Proof.
  unfold emit. set (o1 := match r_parents r with [] => _ | _ => _ end).
  assert (L1 : tree_len o1 = tree_len o /\ t_indexes o1 = t_indexes o).
  { unfold o1. destruct (r_parents r); auto. destruct (t_first o); auto. }
  clearbody o1.
  match goal with |- context [if first then ?a else ?b] => assert (L2 : forall z, z = (if first then a else b) -> tree_len (snd z) = tree_len o1 /\ t_indexes (snd z) = t_indexes o1) end.
  { intros z ->. destruct first; auto. cbn [snd]. destruct (r_prev r); auto. unfold tree_len, tree_upd. simpl. rewrite length_upd. auto. }
  match goal with |- context [if first then ?a else ?b] => destruct (if first then a else b) as [[r1 prev] o2] end.
  specialize (L2 _ eq_refl). cbn [snd] in L2. destruct L1 as [A1 A2], L2 as [B1 B2]. rewrite A1 in B1. rewrite A2 in B2. clear A1 A2 o1.
  assert (Q : forall (o3 o4 : tree T) l, tree_len o4 = tree_len o3 -> t_indexes o4 = t_indexes o3 ->
     tree_push F l o4 = Some (set_t_nodes (t_nodes o4 ++ [l]) o4) /\
     tree_push G l o4 = (if tree_len o3 <? cap then Some (set_t_nodes (t_nodes o4 ++ [l]) o4) else None) /\
     tree_len (set_t_nodes (t_nodes o4 ++ [l]) o4) = S (tree_len o3) /\ t_indexes (set_t_nodes (t_nodes o4 ++ [l]) o4) = t_indexes o3).
  { intros o3 o4 l E1 E2. unfold tree_push. rewrite HS. cbn [limited fl_storage storage_push option_map].
    unfold tree_len in *. rewrite E1. split; [auto|]. split; [destruct (_ <? cap); auto|]. simpl. rewrite app_length. simpl. split; [lia|auto]. }
  assert (U : forall f (o3 : tree T), let o4 := match match r_parents r1 with [] => None | (_, pid) :: _ => Some pid end with Some p => tree_upd p f o3 | None => o3 end in
     tree_len o4 = tree_len o3 /\ t_indexes o4 = t_indexes o3).
  { intros f o3. destruct (r_parents r1) as [|[? p] ?]; cbv zeta; auto. unfold tree_len, tree_upd. simpl. rewrite length_upd. auto. }
  unfold span_len, ix_len_to, ix_checked_add_len. cbn [limited fl_index fl_usize_max].
  destruct (negb (has_children n) && negb (span_is_empty (node_span n))).
  - unfold tree_push_index. rewrite HI. cbn [limited fl_indexes storage_push option_map].
    set (ck := match fl_index F with IxU32 => _ | _ => _ end). destruct ck as [c|].
    2:{ discriminate. }
    set (o3 := set_t_indexes _ o2).
    assert (E3 : tree_len o3 = tree_len o2 /\ length (t_indexes o3) = S (length (t_indexes o2))).
    { unfold o3, tree_len. simpl. rewrite app_length. simpl. split; [auto|lia]. }
    destruct E3 as [E3 E4].
    match goal with |- context [match _ with Some p => tree_upd p ?f o3 | None => o3 end] => destruct (U f o3) as [U1 U2] end. cbv zeta in *.
    match goal with |- context [tree_push F ?l ?o4] => destruct (Q o3 o4 l U1 U2) as (Q1 & Q2 & Q3 & Q4); set (o5 := set_t_nodes (t_nodes o4 ++ [l]) o4) in * end.
    rewrite Q1. clearbody o5. intros H. injection H as <- <- <-. rewrite Q3, Q4, E3, E4, B1, B2.
    split; [auto|]. split; [lia|]. unfold holds. rewrite Q3, Q4, E3, E4, B1, B2.
    split.
    + intros H. apply andb_prop in H as [H1 H2]. apply Nat.leb_le in H1. apply Nat.leb_le in H2.
      destruct (Nat.ltb_spec (length (t_indexes o)) icap); [|lia]. cbn [option_map]. rewrite <- B2. fold o3. rewrite Q2, E3, B1.
      destruct (Nat.ltb_spec (tree_len o) cap); [auto|lia].
    + intros H0 H. apply andb_prop in H0 as [H0 H0']. apply Nat.leb_le in H0. apply Nat.leb_le in H0'.
      destruct (Nat.ltb_spec (length (t_indexes o)) icap); [|auto]. cbn [option_map]. rewrite <- B2. fold o3. rewrite Q2, E3, B1.
      destruct (Nat.ltb_spec (tree_len o) cap); [|auto]. exfalso.
      destruct (Nat.leb_spec (S (tree_len o)) cap); [|lia]. destruct (Nat.leb_spec (S (length (t_indexes o))) icap); [discriminate|lia].
  - match goal with |- context [match _ with Some p => tree_upd p ?f o2 | None => o2 end] => destruct (U f o2) as [U1 U2] end. cbv zeta in *.
    match goal with |- context [tree_push F ?l ?o4] => destruct (Q o2 o4 l U1 U2) as (Q1 & Q2 & Q3 & Q4); set (o5 := set_t_nodes (t_nodes o4 ++ [l]) o4) in * end.
    rewrite Q1. clearbody o5. intros H. injection H as <- <- <-. rewrite Q3, Q4, B1, B2. split; [auto|]. split; [lia|]. unfold holds. rewrite Q3, Q4, B1, B2, Q2, B1.
    split.
    + intros H. apply andb_prop in H as [H1 H2]. apply Nat.leb_le in H1. destruct (Nat.ltb_spec (tree_len o) cap); [auto|lia].
    + intros H0 H. apply andb_prop in H0 as [H0 H0']. rewrite H0' in H. apply Nat.leb_le in H0.
      destruct (Nat.ltb_spec (tree_len o) cap); [|auto]. exfalso. destruct (Nat.leb_spec (S (tree_len o)) cap); [discriminate|lia].
Qed.

Lemma modify_limited c (nodes : list (links T)) : forall fuel r o cur current o' c', modify_loop fuel F c nodes r o cur current = Ok (o', c') ->
  tree_len o <= tree_len o' /\ length (t_indexes o) <= length (t_indexes o') /\
  (holds o = true -> modify_loop fuel G c nodes r o cur current = if holds o' then Ok (o', c') else Err FlavorError).
Proof.
  induction fuel as [|fuel IH]; intros r o cur [[n first]|] o' c'; cbn [modify_loop]; try discriminate.
  1, 3: intros H; injection H as <- <-; split; [auto|]; split; [auto|]; intros ->; auto.
  change (pointer_new G (tree_len o)) with (pointer_new F (tree_len o)).
  destruct (pointer_new F (tree_len o)) as [id|]; [|discriminate]. cbv zeta.
  assert (GO : forall r n first, let go F := match emit F r o cur id n first with
          | ((r, output, cursor), Ok _) => let '(r, current) := refactor_step nodes r n id in modify_loop fuel F c nodes r output cursor current
          | (_, Err e) => Err e | (_, Diverge) => Diverge end in go F = Ok (o', c') ->
     tree_len o <= tree_len o' /\ length (t_indexes o) <= length (t_indexes o') /\ (holds o = true -> go G = if holds o' then Ok (o', c') else Err FlavorError)).
  { clear r n first. intros r n first go. unfold go. destruct (emit F r o cur id n first) as [[[r1 o1] c1] [[]|e|]] eqn:Ee; try discriminate.
    destruct (emit_limited r o cur id n first r1 o1 c1 Ee) as (L1 & L2 & L3 & L4). destruct (refactor_step nodes r1 n id) as [r2 cu] eqn:Es. intros H.
    destruct (IH _ _ _ _ _ _ H) as (I1 & I2 & I3). split; [lia|]. split; [lia|]. intros Ho. destruct (holds o1) eqn:Eo.
    - rewrite (L3 eq_refl), Es. auto.
    - specialize (L4 Ho eq_refl). destruct (emit G r o cur id n first) as [z x]. simpl in L4. subst.
      assert (Eo' : holds o' = false).
      { unfold holds in *. apply Bool.andb_false_iff in Eo. apply Bool.andb_false_iff. destruct Eo as [Eo|Eo]; [left|right]; apply Nat.leb_gt in Eo; apply Nat.leb_gt; lia. }
      rewrite Eo'. destruct z as [[? ?] ?]. auto. }
  destruct (changed c id); [|apply GO]. destruct (skip_subtree nodes r n first) as [r1 [[n1 f1]|]]; [apply GO|].
  intros H. injection H as <- <-. split; [auto|]. split; [auto|]. intros ->. auto.
Qed.
End Limited.

(** modify() into storages with limits of their own: the same tree when it fits, Error::Flavor when it does not. *)
Theorem C40_modify : forall T F cap icap fuel c (t t' : tree T), fl_storage F = SVec -> fl_indexes F = SVec -> modify fuel F c t = Ok t' ->
  modify fuel (limited F cap icap) c t = if (tree_len t' <=? cap) && (length (t_indexes t') <=? icap) then Ok t' else Err FlavorError.
Proof.
  intros T F cap icap fuel c t t' HS HI E. unfold modify in *.
  destruct (modify_loop fuel F c (t_nodes t) (Refactor [] None) tree_new ix_EMPTY (option_map (fun n => (n, false)) (tree_first t))) as [[o cur]|e|] eqn:El; try discriminate.
  injection E as <-. destruct (modify_limited F HS HI cap icap c (t_nodes t) _ _ _ _ _ _ _ El) as (_ & _ & H). rewrite (H eq_refl).
  unfold holds. change (tree_len (set_t_span _ o)) with (tree_len o). change (t_indexes (set_t_span _ o)) with (t_indexes o). destruct (_ && _); auto.
Qed.
Print Assumptions C40_modify.

(** Three nodes, of which one is removed; two of them with positions. *)
Example C40_modify_inhabited : exists (ops : list (op nat)) t c t', builds flavor_default ops t /\ modify 10 flavor_default c t = Ok t' /\
  tree_len t = 4 /\ tree_len t' = 3 /\ length (t_indexes t') = 2.
Proof.
  exists [OOpen 1; OToken 2 2%N; OToken 3 1%N; OClose; OToken 4 1%N]. eexists. exists [1]. eexists. split; [vm_compute; reflexivity|].
  split; [vm_compute; reflexivity|]. repeat split.
Qed.
