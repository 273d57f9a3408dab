(** Property theorems for ALL histories: unbalanced use (C02), where new nodes go, and the
    cursor (C45). *)
From Coq Require Import Lia.
From Verif Require Import Base Pointer Index Tree Builder Hist Node Iter Spec SpecMarks Rep Refine AllHist StepFacts Spanless
  Stack PropsArith PropsSafe.
From Verif Require TreeRep WalkThms PropsTree.

(** ** C02: unbalanced use *)

(** [close] fails, and changes nothing, exactly when no node is open. *)
Theorem C02_close : forall T F (ops : list (op T)), vec_flavor F ->
  let w := run_world F ops in
  let n := nesting 0 ops (run_outs F ops) in
  (n = 0 -> step F w OClose = (w, RErr CloseError)) /\
  (n <> 0 -> snd (step F w OClose) = RUnit).
Proof.
  intros T F ops HF w n. pose proof (stack_history F HF ops) as HS. fold w in HS.
  pose proof (run_wok T F ops HF) as [Hw _]. fold w in Hw.
  assert (Hn : length (open_nodes [] ops (run_outs F ops)) = n) by apply nesting_open_nodes.
  clearbody n w. destruct (stack_close (w_heap w) (w_builder w) _ Hw HS) as (_ & C1 & C2).
  destruct w as [h b env]. cbn [step w_heap w_builder w_env] in *. split; intros E.
  - rewrite C2; auto. apply length_zero_iff_nil. congruence.
  - assert (open_nodes [] ops (run_outs F ops) <> []) as G by (intros G; rewrite G in Hn; simpl in Hn; congruence).
    apply C1 in G. destruct (close b) as [b' r]. cbn [snd] in *. subst r. reflexivity.
Qed.
Print Assumptions C02_close.

(** [build] fails exactly when a node is open, and otherwise returns the tree. *)
Theorem C02_build : forall T F (ops : list (op T)), vec_flavor F ->
  let b := w_builder (run_world F ops) in
  let n := nesting 0 ops (run_outs F ops) in
  (n <> 0 -> build b = Err BuildError) /\ (n = 0 -> build b = Ok (b_tree b)).
Proof.
  intros T F ops HF b n. destruct (stack_history F HF ops) as [_ HP]. fold b in HP.
  assert (Hn : length (open_nodes [] ops (run_outs F ops)) = n) by apply nesting_open_nodes.
  unfold build. rewrite HP. destruct (open_nodes [] ops (run_outs F ops)); simpl in *; split; intros; auto; congruence.
Qed.
Print Assumptions C02_build.

(** Also with a checkpoint misused (the second close_at uses a swallowed one). *)
Example C02_inhabited :
  let ops := [OOpen 1; OCheckpoint; OToken 10 1; OCheckpoint; OToken 11 1; OCloseAt 0 2; OCloseAt 1 3; OToken 7 1]%nat in
  run_outs flavor_default ops = [RNode 0; RCheckpoint; RNode 1; RCheckpoint; RNode 2; RNode 3; RNode 4; RNode 5] /\
  nesting 0 ops (run_outs flavor_default ops) = 1 /\
  snd (step flavor_default (run_world flavor_default ops) OClose) = RUnit /\
  nesting 0 (ops ++ [OClose]) (run_outs flavor_default (ops ++ [OClose])) = 0.
Proof. vm_compute. auto. Qed.

(** ** New nodes *)
Section New.
Context {T : Type}.
Variable F : flavor.
Hypothesis HF : vec_flavor F.
Implicit Types (b : builder T).

Lemma insert_new h b d sp : ok h b ->
  (insert F d sp b = (b, Err Overflow)) \/
  (exists b', insert F d sp b = (b', Ok (tree_len (b_tree b))) /\ b_cursor b' = b_cursor b /\
     b_parent b' = b_parent b /\ t_span (b_tree b') = t_span (b_tree b) /\
     (forall p, b_parent b' = Some p -> p < tree_len (b_tree b)) /\
     nth_error (t_nodes (b_tree b')) (tree_len (b_tree b)) = Some (Links d sp (b_parent b) (b_sibling b) None None None)).
Proof.
  intros H. destruct (ok_bounds _ _ H) as [Hp Hs]. unfold insert. rewrite pointer_new_full.
  destruct (_ <=? _)%N; [left; auto|right]. unfold tree_push. rewrite (proj1 HF).
  cbn [storage_push option_map b_tree set_b_sibling b_parent b_sibling].
  eexists. split; [reflexivity|]. cbn [b_cursor b_parent set_b_tree set_b_sibling b_tree]. unfold tree_len in *.
  set (n := length (t_nodes (b_tree b))) in *. split; [auto|]. split; [auto|]. split; [|split; [auto|]].
  - destruct (b_sibling b), (b_parent b); simpl; auto; destruct (t_first (b_tree b)); auto.
  - assert (U : forall i f, i < n -> nth_error (upd (t_nodes (b_tree b) ++ [Links d sp (b_parent b) (b_sibling b) None None None]) i f) n =
       Some (Links d sp (b_parent b) (b_sibling b) None None None)).
    { intros i f Hi. rewrite nth_upd. destruct (Nat.eqb_spec i n); [lia|]. rewrite nth_error_app2 by (unfold n; lia).
      unfold n. rewrite Nat.sub_diag. reflexivity. }
    assert (U0 : nth_error (t_nodes (b_tree b) ++ [Links d sp (b_parent b) (b_sibling b) None None None]) n =
       Some (Links d sp (b_parent b) (b_sibling b) None None None)).
    { rewrite nth_error_app2 by (unfold n; lia). unfold n. rewrite Nat.sub_diag. reflexivity. }
    destruct (b_sibling b) as [s|] eqn:Es, (b_parent b) as [p|] eqn:Ep; cbn [tree_upd set_t_nodes t_nodes set_t_last].
    + rewrite nth_upd. destruct (Nat.eqb_spec s n) as [E|_]; [specialize (Hs s eq_refl); lia|]. apply U. auto.
    + destruct (t_first _); cbn [set_t_first t_nodes]; apply U; auto.
    + apply U; auto.
    + destruct (t_first _); cbn [set_t_first t_nodes]; exact U0.
Qed.
End New.

(** A node made by [open*] or [token*] goes into the innermost open node, after the last sibling
    there, with the value given and (right after the call) the span given by the caller or, for the
    calls without a span, from the cursor before the call to the cursor after it. *)
Definition new_span {T} (o : op T) (before after : N) : option span :=
  match o with
  | OOpen _ | OTokenEmpty _ => Some (span_point before)
  | OToken _ _ => Some (Span before after)
  | OOpenWith _ sp | OTokenWith _ sp => Some sp
  | _ => None
  end.
Definition cursor_of {T} (w : world T) : N := cursor (w_builder w).

Theorem C45_new_node : forall T F (ops : list (op T)) o id sp, vec_flavor F ->
  let w := run_world F ops in
  let w' := run_world F (ops ++ [o]) in
  let t' := tree_so_far F (ops ++ [o]) in
  snd (step F w o) = RNode id -> new_span o (cursor_of w) (cursor_of w') = Some sp ->
  exists n, tree_get t' id = Some n /\ op_value o = Some (node_value n) /\ node_span n = sp /\
    has_children n = false /\ node_next (t_nodes t') n = None /\
    option_map fst (node_parent (t_nodes t') n) = hd_error (open_nodes [] ops (run_outs F ops)).
Proof.
  intros T F ops o id sp HF w w' t' Hr Hsp.
  pose proof (stack_history F HF ops) as [_ HS]. pose proof (run_wok T F ops HF) as [Hok Hen]. fold w in HS, Hok, Hen.
  assert (Hw' : w' = fst (step F w o)) by apply (run_snoc T F ops o).
  assert (Ht' : t' = b_tree (w_builder w')) by reflexivity.
  rewrite <- HS. clear HS.
  assert (G : forall d sp0 b b2, w_builder w = b -> w_builder w' = b2 ->
     (exists b0 b1, ok (w_heap w) b0 /\ b_parent b0 = b_parent b /\ tree_len (b_tree b0) = tree_len (b_tree b) /\
        insert F d sp0 b0 = (b1, Ok id) /\
        (nth_error (t_nodes (b_tree b2)) id = nth_error (t_nodes (b_tree b1)) id) /\
        tree_len (b_tree b2) = tree_len (b_tree b1)) ->
     exists n, tree_get t' id = Some n /\ d = node_value n /\ node_span n = sp0 /\ has_children n = false /\
       node_next (t_nodes t') n = None /\ option_map fst (node_parent (t_nodes t') n) = b_parent b).
  { intros d sp0 b b2 <- Eb2 (b0 & b1 & H0 & Ep & El & E & En & Eln).
    destruct (ok_bounds _ _ H0) as [Hp _].
    destruct (insert_new F HF (w_heap w) b0 d sp0 H0) as [E'|(b' & E' & _ & _ & _ & _ & N)]; rewrite E' in E; [discriminate|].
    injection E as -> <-. unfold tree_get, node_at. rewrite Ht', Eb2, En, N. eexists. split; [reflexivity|].
    split; [reflexivity|]. split; [reflexivity|]. split; [reflexivity|]. split; [reflexivity|].
    unfold node_parent. cbn [snd l_parent]. rewrite <- Ep. destruct (b_parent b0) as [p|] eqn:Epp; [|reflexivity].
    assert (Hlt : p < tree_len (b_tree b2)).
    { rewrite Eln. apply nth_lt in N. specialize (Hp p eq_refl). unfold tree_len in *. lia. }
    simpl. unfold node_at. destruct (nth_in _ _ Hlt) as [lp ->]. reflexivity. }
  assert (HT : forall (d : T) len sp0 (b0 b2 : builder T) r, ok (w_heap w) b0 -> token_rest F d sp0 len b0 = (b2, r) -> r = Ok id ->
     exists b1, insert F d sp0 b0 = (b1, Ok id) /\ nth_error (t_nodes (b_tree b2)) id = nth_error (t_nodes (b_tree b1)) id /\
       tree_len (b_tree b2) = tree_len (b_tree b1) /\ b_cursor b2 = b_cursor b0).
  { clear -HF. intros d len sp0 b0 b2 r H0 E ->. unfold token_rest in E.
    destruct (insert_new F HF (w_heap w) b0 d sp0 H0) as [E'|(b' & E' & Ec & _)]; rewrite E' in E; [discriminate|]. cbv zeta in E.
    destruct (len_is_empty F len); [injection E as <- <-; exists b'; auto|].
    destruct (push_index_vec F (b_cursor (set_b_sibling (Some (tree_len (b_tree b0))) b')) (tree_len (b_tree b0))
                (b_tree (set_b_sibling (Some (tree_len (b_tree b0))) b')) HF) as [ls El].
    rewrite El in E. injection E as <- <-. exists b'. auto. }
  assert (HTok : forall d len b2, token F d len (w_builder w) = (b2, Ok id) ->
     exists b0 b1, ok (w_heap w) b0 /\ b_parent b0 = b_parent (w_builder w) /\ tree_len (b_tree b0) = tree_len (b_tree (w_builder w)) /\
        insert F d (Span (b_cursor (w_builder w)) (b_cursor b2)) b0 = (b1, Ok id) /\
        (nth_error (t_nodes (b_tree b2)) id = nth_error (t_nodes (b_tree b1)) id) /\
        tree_len (b_tree b2) = tree_len (b_tree b1)).
  { intros d len b2 E. rewrite token_cases in E. destruct (len_is_empty F len) eqn:El.
    - destruct (HT d len _ _ _ _ Hok E eq_refl) as (b1 & E1 & E2 & E3 & E4). exists (w_builder w), b1. rewrite E4. auto 8.
    - destruct (ix_checked_add_len F (b_cursor (w_builder w)) len) as [c|]; [|discriminate].
      set (b0 := set_b_tree _ _) in E.
      assert (H0 : ok (w_heap w) b0) by (eapply ok_ext; [exact Hok|..]; simpl; auto; apply same_ptrs_refl).
      destruct (HT d len _ _ _ _ H0 E eq_refl) as (b1 & E1 & E2 & E3 & E4). exists b0, b1. rewrite E4. auto 8. }
  clear HT. rewrite Hw' in Hsp. unfold cursor_of, cursor in Hsp.
  destruct w as [h b env]. cbn [w_builder w_heap w_env] in *.
  destruct o; try discriminate; cbn [new_span op_value] in *; injection Hsp as <-; cbn [step w_heap w_builder w_env] in Hr, Hw'.
  - unfold open in Hr, Hw'. destruct (insert F d (span_point (b_cursor b)) b) as [b1 r] eqn:E. 
    destruct r as [i|e|]; cbn [fst snd out_node] in *; try discriminate. injection Hr as ->.
    destruct (G d (span_point (b_cursor b)) b _ eq_refl eq_refl) as (n & N1 & -> & N2).
    { rewrite Hw'. exists b, b1. auto 8. } exists n. auto.
  - unfold open_with in Hr, Hw'. destruct (insert F d sp0 b) as [b1 r] eqn:E. 
    destruct r as [i|e|]; cbn [fst snd out_node] in *; try discriminate. injection Hr as ->.
    destruct (G d sp0 b _ eq_refl eq_refl) as (n & N1 & -> & N2).
    { rewrite Hw'. exists b, b1. auto 8. } exists n. auto.
  - destruct (token F d len b) as [b2 r] eqn:E. destruct r as [i|e|]; cbn [fst snd out_node w_builder] in *; try discriminate. injection Hr as ->.
    pose proof (HTok d len b2 E) as G2. destruct (G d _ b b2 eq_refl (f_equal _ Hw') G2) as (n & N1 & -> & N2).
    exists n. auto.
  - unfold token_empty in *. destruct (token F d len_EMPTY b) as [b2 r] eqn:E. destruct r as [i|e|]; cbn [fst snd out_node w_builder] in *; try discriminate. injection Hr as ->.
    assert (Ec : b_cursor b2 = b_cursor b).
    { rewrite token_cases in E. assert (Ee : len_is_empty F len_EMPTY = true) by (unfold len_is_empty, len_EMPTY; destruct (fl_index F); auto).
      rewrite Ee in E. unfold token_rest in E. rewrite Ee in E. 
      destruct (insert_new F HF h b d (Span (b_cursor b) (b_cursor b)) Hok) as [E'|(b' & E' & Ec & _)]; rewrite E' in E; [discriminate|].
      injection E as <- _. exact Ec. }
    pose proof (HTok d _ b2 E) as G2. rewrite Ec in G2. destruct (G d _ b b2 eq_refl (f_equal _ Hw') G2) as (n & N1 & -> & N2).
    exists n. auto.
  - unfold token_with in *. destruct (insert_new F HF h b d sp0 Hok) as [E|(b1 & E & _ & Ep & _ & Hlt & N)]; rewrite E in Hr, Hw'; [discriminate|].
    cbv zeta in Hr, Hw'. set (b2 := set_b_sibling _ b1) in *.
    destruct (push_index_vec F (s_start sp0) (tree_len (b_tree b)) (b_tree b2) HF) as [ls El]. rewrite El in Hr, Hw'.
    cbn [fst snd out_node] in *. injection Hr as <-.
    destruct (G d sp0 b _ eq_refl eq_refl) as (n & N1 & -> & N2); [|exists n; auto].
    exists b, b1. split; [exact Hok|]. split; [auto|]. split; [auto|]. split; [exact E|]. rewrite Hw'. cbn [w_builder b_tree set_b_cursor set_b_tree].
    change (b_parent b2) with (b_parent b1).
    destruct (b_parent b1) as [p|] eqn:Epp; cbn [tree_upd set_t_nodes t_nodes set_t_indexes b_tree b2 set_b_sibling]; [|auto].
    split.
    + rewrite nth_upd. destruct (Nat.eqb_spec p (tree_len (b_tree b))); [|auto]. specialize (Hlt p eq_refl). lia.
    + unfold tree_len. simpl. apply length_upd.
Qed.
Print Assumptions C45_new_node.

Example C45_new_node_inhabited :
  let ops := [OOpen 1; OToken 2 3; OSetCursor 10]%nat in
  let o := OToken 4 5 in
  snd (step flavor_default (run_world flavor_default ops) o) = RNode 2 /\
  new_span o (cursor_of (run_world flavor_default ops)) (cursor_of (run_world flavor_default (ops ++ [o]))) = Some (Span 10 15) /\
  hd_error (open_nodes [] ops (run_outs flavor_default ops)) = Some 0.
Proof. vm_compute. auto. Qed.

(** ** C45: the cursor *)

(** Calls that leave the cursor alone, whatever their result, in every state and flavor. *)
Theorem C45_still : forall T F (w : world T) o,
  match o with
  | OOpen _ | OOpenWith _ _ | OTokenEmpty _ | OCheckpoint | OCloseAt _ _ | OCloseAtWith _ _ _ => True
  | OClose | OToken _ _ | OTokenWith _ _ | OSetCursor _ => False
  end -> cursor_of (fst (step F w o)) = cursor_of w.
Proof.
  intros T F [h b env] o Ho.
  assert (HI : forall d sp, b_cursor (fst (insert F d sp b)) = b_cursor b).
  { intros d sp. unfold insert. destruct (pointer_new F _); [|auto]. destruct (tree_push _ _ _); auto. }
  assert (HC : forall a d osp, b_cursor (snd (fst (close_at_gen F a d osp h b))) = b_cursor b).
  { intros a d osp. unfold close_at_gen. destruct (nth_error h a) as [c|]; [|auto]. destruct (negb _); [auto|].
    destruct (pointer_new F _) as [n|]; [|auto]. destruct (nth_error _ (c_node c)) as [l|].
    - cbv zeta. destruct (match l_next l with Some _ => _ | None => _ end) as [ns [[la e]|e|]]; [|auto|auto].
      destruct (tree_push _ _ _); auto.
    - cbv zeta. match goal with |- context [insert F d ?sp b] => pose proof (HI d sp) as G; destruct (insert F d sp b) as [b' [i|e|]] end; simpl in *; auto.
      destruct (Nat.eqb _ _); auto. }
  destruct o; destruct Ho; unfold cursor_of, cursor; cbn [step w_heap w_builder w_env].
  - unfold open. pose proof (HI d (span_point (b_cursor b))) as G. destruct (insert F d _ b) as [b' [i|e|]]; exact G.
  - unfold open_with. pose proof (HI d sp) as G. destruct (insert F d _ b) as [b' [i|e|]]; exact G.
  - unfold token_empty. rewrite token_cases. assert (Ee : len_is_empty F len_EMPTY = true) by (unfold len_is_empty, len_EMPTY; destruct (fl_index F); auto).
    rewrite Ee. unfold token_rest. rewrite Ee. pose proof (HI d (Span (b_cursor b) (b_cursor b))) as G.
    destruct (insert F d _ b) as [b' [i|e|]]; exact G.
  - unfold checkpoint. destruct (pointer_new F _); [|auto]. destruct (b_checkpoint b); [|auto].
    destruct (nth_error h _); [|auto]. destruct (_ && _); auto.
  - destruct (nth_error env k); [|auto]. pose proof (HC n d None) as G. unfold close_at. destruct (close_at_gen F n d None h b) as [[h' b'] r]. exact G.
  - destruct (nth_error env k); [|auto]. pose proof (HC n d (Some sp)) as G. unfold close_at_with. destruct (close_at_gen F n d (Some sp) h b) as [[h' b'] r]. exact G.
Qed.
Print Assumptions C45_still.

(** [set_cursor] sets the cursor and nothing else. *)
Theorem C45_set : forall T F (w : world T) i,
  let w' := fst (step F w (OSetCursor i)) in
  snd (step F w (OSetCursor i)) = RUnit /\ cursor_of w' = i /\ b_tree (w_builder w') = b_tree (w_builder w) /\
  fst (step F w' (OSetCursor (cursor_of w))) = w.
Proof. intros T F [h [t c p s cu] env] i. simpl. auto. Qed.
Print Assumptions C45_set.

(** [token]: on success the cursor advances by exactly the length (an [Empty] index stays).  A token
    that is refused leaves it, unless it was refused for the number of nodes (see C13). *)
Theorem C45_token : forall T F (ops : list (op T)) d len, vec_flavor F ->
  let w := run_world F ops in
  let w' := fst (step F w (OToken d len)) in
  (forall id, snd (step F w (OToken d len)) = RNode id ->
     cursor_of w' = if match fl_index F with IxEmpty => true | _ => false end then cursor_of w else (cursor_of w + len)%N) /\
  (forall e, snd (step F w (OToken d len)) = RErr e -> ~ late_refusal F w (OToken d len) -> cursor_of w' = cursor_of w).
Proof.
  intros T F ops d len HF w w'. split.
  - intros id Hr. pose proof (run_wok T F ops HF) as [Hok _]. fold w in Hok. subst w'. clearbody w. destruct w as [h b env].
    cbn [step w_heap w_builder w_env] in *. unfold cursor_of, cursor. cbn [w_builder].
    assert (HT : forall sp b0 b2 r, ok h b0 -> token_rest F d sp len b0 = (b2, r) -> b_cursor b2 = b_cursor b0).
    { clear -HF. intros sp b0 b2 r H0 E. unfold token_rest in E.
      destruct (insert_new F HF h b0 d sp H0) as [E'|(b' & E' & Ec & _)]; rewrite E' in E; [injection E as <- _; auto|]. cbv zeta in E.
      destruct (len_is_empty F len); [injection E as <- _; auto|].
      destruct (tree_push_index _ _ _ _); injection E as <- _; auto. }
    rewrite token_cases in *. destruct (len_is_empty F len) eqn:El.
    + destruct (token_rest F d _ len b) as [b2 r] eqn:E. cbn [fst w_builder]. rewrite (HT _ _ _ _ Hok E).
      unfold len_is_empty in El. destruct (fl_index F); auto; apply N.eqb_eq in El; subst; lia.
    + destruct (ix_checked_add_len F (b_cursor b) len) as [c|] eqn:Ec; [|discriminate].
      destruct (token_rest F d _ len _) as [b2 r] eqn:E. cbn [fst w_builder].
      assert (Hc : b_cursor b2 = c).
      { apply (HT _ _ _ _) in E; [exact E|]. eapply ok_ext; [exact Hok|..]; simpl; auto. apply same_ptrs_refl. }
      rewrite Hc. unfold ix_checked_add_len, len_is_empty in *. destruct (fl_index F); try discriminate.
      * destruct (_ <=? _)%N in Ec; [|discriminate]. destruct (_ <=? _)%N in Ec; congruence.
      * destruct (_ <=? _)%N in Ec; congruence.
  - intros e Hr Hl. subst w'. destruct (step F w (OToken d len)) as [w1 r] eqn:E. cbn [snd fst] in *. subst r.
    rewrite (C13_unchanged_partial T F ops _ _ _ HF E Hl). auto.
Qed.
Print Assumptions C45_token.

(** [token_with]: on success the cursor is at the end of the span given. *)
Theorem C45_token_with : forall T F (ops : list (op T)) d sp, vec_flavor F ->
  let w := run_world F ops in
  let w' := fst (step F w (OTokenWith d sp)) in
  (forall id, snd (step F w (OTokenWith d sp)) = RNode id -> cursor_of w' = s_end sp) /\
  (forall e, snd (step F w (OTokenWith d sp)) = RErr e -> w' = w).
Proof.
  intros T F ops d sp HF w w'. split.
  - intros id Hr. subst w'. clearbody w. destruct w as [h b env]. cbn [step w_heap w_builder w_env] in *.
    unfold token_with in *. destruct (insert F d sp b) as [b1 [i|e|]]; try discriminate. cbv zeta in *.
    destruct (tree_push_index _ _ _ _); [|discriminate]. reflexivity.
  - intros e Hr. subst w'. destruct (step F w (OTokenWith d sp)) as [w1 r] eqn:E. cbn [snd fst] in *. subst r.
    eapply (C13_unchanged_partial T F ops); eauto. intros (? & ? & ? & _). discriminate.
Qed.
Print Assumptions C45_token_with.

(** [close]: on success the cursor is at the end of the node closed, which is the innermost open
    node. *)
Theorem C45_close : forall T F (ops : list (op T)), vec_flavor F ->
  let w := run_world F ops in
  let w' := fst (step F w OClose) in
  (snd (step F w OClose) = RUnit -> exists id n, hd_error (open_nodes [] ops (run_outs F ops)) = Some id /\
     tree_get (b_tree (w_builder w')) id = Some n /\ cursor_of w' = s_end (node_span n)) /\
  (forall e, snd (step F w OClose) = RErr e -> w' = w).
Proof.
  intros T F ops HF w w'. split.
  - intros Hr. pose proof (stack_history F HF ops) as [HS HP]. pose proof (run_wok T F ops HF) as [Hok _]. fold w in HS, HP, Hok.
    rewrite <- HP. subst w'. clearbody w. destruct w as [h b env]. cbn [step w_heap w_builder w_env] in *.
    destruct Hok as (lo & hi & cap & stk & HB & _). pose proof (bi_table _ _ _ _ _ HB) as HT.
    unfold close in *. destruct (b_parent b) as [head|] eqn:Ep; [|discriminate]. cbv zeta in *. cbn [b_tree set_b_parent set_b_sibling] in *.
    destruct (nth_error (t_nodes (b_tree b)) head) as [l|] eqn:E; [|discriminate].
    destruct (l_parent l) as [id|] eqn:Eid.
    + destruct (li_parent _ _ _ _ _ _ (HT _ _ E) id Eid) as (_ & Hlo & _).
      destruct (nth_error (t_nodes (b_tree b)) id) as [lp|] eqn:Elp; [|discriminate].
      cbn [fst snd w_builder b_tree set_b_cursor set_b_parent set_b_tree].
      exists head, (head, l). split; auto. split; [|reflexivity]. unfold tree_get, node_at, tree_upd. cbn [t_nodes set_t_nodes].
      rewrite nth_upd. destruct (Nat.eqb_spec id head) as [->|_]; [exfalso; revert Hlo; apply QArith_base.Qlt_irrefl|]. rewrite E. auto.
    + exists head, (head, l). split; auto. split; [|reflexivity]. unfold tree_get, node_at. simpl. rewrite E. auto.
  - intros e Hr. subst w'. destruct (step F w OClose) as [w1 r] eqn:E. cbn [snd fst] in *. subst r.
    eapply (C13_unchanged_partial T F ops); eauto. intros (? & ? & ? & _). discriminate.
Qed.
Print Assumptions C45_close.

(** The document and the builder agree on the cursor, the span of the tree and the index. *)
Theorem C01_cursor : forall T F (ops : list (op T)) a rs, vec_flavor F -> describes F ops a rs ->
  cursor_of (run_world F ops) = a_cursor a /\ t_span (tree_so_far F ops) = a_span a /\
  t_indexes (tree_so_far F ops) = a_index a /\ tree_len (tree_so_far F ops) = a_n a.
Proof.
  intros T F ops a rs HF H. destruct (Refine.refines F HF ops a rs H) as (w & E & HR).
  unfold cursor_of, tree_so_far, run_world. rewrite E. simpl. destruct (r_builder _ _ HR). auto.
Qed.
Print Assumptions C01_cursor.

Example C45_inhabited :
  let ops := [OOpenWith 1 (Span 4 4); OTokenWith 2 (Span 5 9); OSetCursor 20; OToken 3 2; OOpen 4]%nat in
  map (fun k => cursor_of (run_world flavor_default (firstn k (ops ++ [OClose; OClose])))) [1; 2; 3; 4; 5; 6; 7] =
    [0; 9; 20; 22; 22; 22; 22]%N /\
  snd (step flavor_default (run_world flavor_default ops) OClose) = RUnit /\
  open_nodes [] ops (run_outs flavor_default ops) = [3; 0].
Proof. vm_compute. auto. Qed.

(** ** C46: sizes *)

(** [Tree::len] counts the calls that returned a node; [Tree::is_empty] says whether there was none,
    which is also whether there is a first node. *)
Theorem C46_len : forall T F (ops : list (op T)), vec_flavor F ->
  let t := tree_so_far F ops in
  tree_len t = length (inserted ops (run_outs F ops)) /\
  (tree_is_empty t = true <-> inserted ops (run_outs F ops) = []).
Proof.
  intros T F ops HF t. assert (E : tree_len t = length (inserted ops (run_outs F ops))).
  { pose proof (f_equal (@length _) (C10_values T F ops HF)) as G. rewrite !map_length, seq_length in G. exact G. }
  split; auto. unfold tree_is_empty. rewrite E, Nat.eqb_eq. apply length_zero_iff_nil.
Qed.
Print Assumptions C46_len.

(** In a built tree: [Tree::len] is the number of nodes of the document, [Tree::is_empty] says that it
    has none, and [Node::is_empty] that the node has no children. *)
Theorem C46_document : forall T F (ops : list (op T)) t l, finished F ops t l ->
  tree_len t = length (preorder_list l) /\ (tree_is_empty t = true <-> l = []) /\
  (forall x n, In x (preorder_list l) -> tree_get t (r_id x) = Some n -> (node_is_empty n = true <-> r_kids x = [])) /\
  (forall i n, tree_get t i = Some n -> node_is_empty n = negb (has_children n)).
Proof.
  intros T F ops t l H. pose proof (WalkThms.fin_rep F ops t l H) as HR.
  assert (E : tree_len t = length (preorder_list l)) by apply (TreeRep.tr_length _ _ HR).
  split; [auto|]. split; [|split].
  - unfold tree_is_empty. rewrite E, Nat.eqb_eq. split; [|intros ->; auto]. destruct l as [|[] l]; simpl; [auto|discriminate].
  - intros x n Hx En. destruct (proj1 (PropsTree.C08_all_nodes T F ops t l H) x Hx) as (m & Em & V).
    assert (m = n) by congruence. subst m. unfold view, rview in V.
    assert (Hh : has_children n = has_kids x) by congruence. unfold has_children, has_kids, node_is_empty in *.
    destruct (l_first (snd n)), (r_kids x); split; intros; congruence.
  - intros i n _. unfold node_is_empty, has_children. destruct (l_first (snd n)); auto.
Qed.
Print Assumptions C46_document.

(** No node at all; and a childless node that is not alone. *)
Example C46_inhabited :
  let ops := [OOpen 1; OToken 2 3; OClose]%nat in
  let t := tree_so_far flavor_default ops in
  tree_is_empty (tree_so_far flavor_default [@OCheckpoint nat; OSetCursor 4]) = true /\
  tree_len t = 2 /\ tree_is_empty t = false /\
  option_map node_is_empty (tree_get t 0) = Some false /\ option_map node_is_empty (tree_get t 1) = Some true.
Proof. vm_compute. auto. Qed.
