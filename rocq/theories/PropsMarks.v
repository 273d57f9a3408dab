(** C05: CloseAtError. *)
From Coq Require Import Lia.
From Verif Require Import Base Pointer Index Tree Builder Hist Spec SpecMarks Rep Marks Refine AllHist StepFacts DocInv.
From Verif Require Import Node Iter Demo Sim PropsSafe.

Section Levels.
Context {T : Type}.
Variable F : flavor.
Implicit Types (a : doc T) (o : op T) (ops : list (op T)).

Definition oids a : list nat := map f_id (a_open a).
Definition mlevels a : list (option nat) := map mark_level (a_marks a).

Lemma touch_fids e (fs : list (frame T)) : map f_id (touch e fs) = map f_id fs.
Proof. destruct fs; auto. Qed.
Lemma widen_fids e (fs : list (frame T)) : map f_id (widen e fs) = map f_id fs.
Proof. destruct fs; auto. Qed.
Lemma level_oids a : level (a_open a) = hd_error (oids a).
Proof. unfold oids. destruct (a_open a); auto. Qed.
Lemma swallow_level l p (ms : list mark) : map mark_level (map (swallow l p) ms) = map mark_level ms.
Proof.
  rewrite map_map. apply map_ext. intros [l' p'|l']; simpl; auto. destruct (_ && _); auto.
Qed.

Lemma close_at_levels k d osp a a' r : a_close_at F k d osp a = Some (a', r) ->
  oids a' = oids a /\ mlevels a' = mlevels a.
Proof.
  unfold a_close_at. intros E.
  destruct (nth_error (a_marks a) k) as [m|]; [|injection E as <- <-; auto].
  destruct (negb _); [injection E as <- <-; auto|]. destruct (full F a); [injection E as <- <-; auto|].
  destruct m as [lv pos|]; [|discriminate]. unfold oids, mlevels.
  destruct (skipn pos (a_cur a)); injection E as <- <-; simpl; rewrite ?touch_fids, ?swallow_level; auto.
Qed.
Lemma token_levels d len a a' r : a_token F d len a = (a', r) -> oids a' = oids a /\ mlevels a' = mlevels a.
Proof.
  unfold a_token, oids, mlevels. intros E. destruct (len_is_empty F len).
  - destruct (full F a); injection E as <- <-; simpl; rewrite ?touch_fids; auto.
  - destruct (ix_checked_add_len F (a_cursor a) len); [|injection E as <- <-; auto].
    destruct (full F a); injection E as <- <-; simpl; rewrite ?touch_fids; auto.
Qed.

Lemma levels_step a o a' r ops rs : a_step F a o = Some (a', r) ->
  open_nodes (oids a) (o :: ops) (r :: rs) = open_nodes (oids a') ops rs /\
  mlevels a ++ taken_in (oids a) (o :: ops) (r :: rs) = mlevels a' ++ taken_in (oids a') ops rs.
Proof.
  intros E. destruct o; simpl in E; try (injection E as E).
  - unfold a_open_with in E. destruct (full F a); injection E as <- <-; simpl; auto.
    unfold oids, mlevels. simpl. rewrite touch_fids. auto.
  - unfold a_open_with in E. destruct (full F a); injection E as <- <-; simpl; auto.
    unfold oids, mlevels. simpl. rewrite touch_fids. auto.
  - unfold a_close in E. unfold oids, mlevels. destruct (a_open a) as [|f fs] eqn:Eo; injection E as <- <-; simpl;
      rewrite ?Eo, ?widen_fids; auto.
  - apply token_levels in E as [E1 E2]. simpl. rewrite E1, E2. auto.
  - apply token_levels in E as [E1 E2]. simpl. rewrite E1, E2. auto.
  - unfold a_token_with in E. unfold oids, mlevels. destruct (full F a); injection E as <- <-; simpl;
      rewrite ?widen_fids, ?touch_fids; auto.
  - unfold a_checkpoint in E. destruct (full F a); injection E as <- <-; simpl; auto.
    split; auto. unfold mlevels. simpl. rewrite map_app, <- app_assoc. simpl. rewrite level_oids. auto.
  - apply close_at_levels in E as [E1 E2]. simpl. rewrite E1, E2. auto.
  - apply close_at_levels in E as [E1 E2]. simpl. rewrite E1, E2. auto.
  - subst. auto.
Qed.

Lemma levels_run ops : forall a a' rs, a_run F a ops = Some (a', rs) ->
  oids a' = open_nodes (oids a) ops rs /\ mlevels a' = mlevels a ++ taken_in (oids a) ops rs.
Proof.
  induction ops as [|o ops IH]; intros a a' rs E.
  - simpl in E. injection E as <- <-. simpl. rewrite app_nil_r. auto.
  - cbn [a_run] in E. destruct (a_step F a o) as [[a1 r]|] eqn:E1; [|discriminate].
    destruct (a_run F a1 ops) as [[a2 rs']|] eqn:E2; [|discriminate]. injection E as <- <-.
    destruct (levels_step a o a1 r ops rs' E1) as [-> ->]. eauto.
Qed.
End Levels.

Lemma restructure_error {T} fuel : forall p x (ns ns' : list (links T)) e,
  restructure fuel p x ns = (ns', Err e) -> e <> CloseAtError.
Proof.
  induction fuel as [|fuel IH]; intros p x ns ns' e; simpl; [congruence|].
  destruct (nth_error ns x) as [l|]; [|congruence]. destruct (l_next l); [apply IH|congruence].
Qed.

Lemma insert_error {T} F d sp (b : builder T) : snd (insert F d sp b) <> Err CloseAtError.
Proof.
  unfold insert. destruct (pointer_new _ _); [|simpl; congruence]. cbv zeta.
  destruct (tree_push _ _ _); simpl; congruence.
Qed.

Lemma close_at_error {T} F ad c d osp h (b : builder T) : nth_error h ad = Some c ->
  (c_parent c <> b_parent b -> close_at_gen F ad d osp h b = (h, b, Err CloseAtError)) /\
  (c_parent c = b_parent b -> snd (close_at_gen F ad d osp h b) <> Err CloseAtError).
Proof.
  intros Ec. unfold close_at_gen. rewrite Ec.
  destruct (opt_nat_eqb_spec (c_parent c) (b_parent b)) as [Hl|Hl]; simpl negb; cbv iota;
    (split; [intros Hn|intros Hn]); try congruence; auto.
  destruct (pointer_new F _) as [nn|]; [|simpl; congruence].
  destruct (nth_error (t_nodes (b_tree b)) (c_node c)) as [l|].
  - cbv zeta. destruct (l_next l) as [x|];
    [destruct (restructure _ _ _ _) as [ns [[la e]|e|]] eqn:Er|].
    + destruct (tree_push _ _ _); simpl; congruence.
    + simpl. apply restructure_error in Er. congruence.
    + simpl. congruence.
    + destruct (tree_push _ _ _); simpl; congruence.
  - match goal with |- context [insert F d ?sp b] => pose proof (insert_error F d sp b) as HI;
      destruct (insert F d sp b) as [b' [i|e|]] end; simpl in *; try congruence.
    destruct (Nat.eqb _ _); simpl; congruence.
Qed.

(** C05.  For every history that used no swallowed checkpoint so far, [close_at] and [close_at_with]
    answer CloseAtError exactly when the node open now is not the node that was open when the
    checkpoint was taken.  (What is missing from the property: histories in which a swallowed
    checkpoint was used, see C05_swallowed_refuted.) *)
Theorem C05_error_partial : forall T F (ops : list (op T)) o k, vec_flavor F -> well_used F ops ->
  closes_at k o ->
  (snd (step F (run_world F ops) o) = RErr CloseAtError <->
   exists lv, nth_error (taken_in [] ops (run_outs F ops)) k = Some lv /\
     lv <> hd_error (open_nodes [] ops (run_outs F ops))).
Proof.
  intros T F ops o k HF Hw Ho. unfold well_used in Hw.
  destruct (a_run F doc_new ops) as [[a rs]|] eqn:Ea; [|congruence]. clear Hw.
  destruct (refines F HF ops a rs Ea) as (w & Ew & HR).
  destruct (levels_run F ops _ _ _ Ea) as [E1 E2].
  change (oids doc_new) with (@nil nat) in E1, E2. change (mlevels (@doc_new T)) with (@nil (option nat)) in E2. simpl app in E2.
  unfold run_outs, run_world. rewrite Ew. simpl snd. simpl fst. rewrite <- E1, <- E2. clear E1 E2 Ew Ea.
  assert (G : exists d osp, snd (step F w o) = match nth_error (w_env w) k with None => RNoHandle
      | Some ad => out_node (snd (close_at_gen F ad d osp (w_heap w) (w_builder w))) end).
  { destruct o; simpl in Ho; try tauto; subst; simpl;
      [exists d, None|exists d, (Some sp)]; destruct (nth_error (w_env w) k) as [ad|]; auto;
      unfold close_at, close_at_with; destruct (close_at_gen F ad d _ _ _) as [[? ?] ?]; auto. }
  destruct G as (d & osp & ->). clear Ho.
  destruct HR as [HB HM]. pose proof (mi_ok _ _ _ _ _ _ _ HM) as HM'.
  unfold mlevels. rewrite <- level_oids.
  destruct (nth_error (a_marks a) k) as [m|] eqn:Em.
  - destruct (Forall2_nth _ _ _ _ _ HM' Em) as (ad & Ead & c & Ec & Ep & _).
    rewrite Ead, (map_nth_error mark_level _ _ Em).
    destruct (close_at_error F ad c d osp (w_heap w) (w_builder w) Ec) as [C1 C2].
    rewrite Ep, (br_parent _ _ HB) in C1, C2. split.
    + intros E. exists (mark_level m). split; auto. intros Hl. apply (C2 Hl).
      destruct (snd (close_at_gen F ad d osp (w_heap w) (w_builder w))) as [|e|]; simpl in E; congruence.
    + intros (lv & X & Y). rewrite C1 by congruence. auto.
  - assert (nth_error (w_env w) k = None) as ->.
    { apply nth_error_None. apply nth_error_None in Em. rewrite (Forall2_length _ _ _ HM'). auto. }
    rewrite (proj2 (nth_error_None _ _)); [|rewrite map_length; apply nth_error_None; auto].
    split; [discriminate|intros (? & ? & _); discriminate].
Qed.

Print Assumptions C05_error_partial.

(** CloseAtError leaves everything as it was, in every state whatsoever. *)
Theorem C05_unchanged : forall T F (w : world T) o k w', closes_at k o ->
  step F w o = (w', RErr CloseAtError) -> w' = w.
Proof.
  intros T F w o k w' Ho E. destruct w as [h b env].
  assert (G : forall ad d osp w', (let '(h, b, r) := close_at_gen F ad d osp h b in (World h b env, out_node r)) = (w', RErr CloseAtError) ->
    w' = World h b env).
  { intros ad d osp w2 E2. destruct (nth_error h ad) as [c|] eqn:Ec.
    - destruct (close_at_error F ad c d osp h b Ec) as [C1 C2].
      destruct (opt_nat_eqb_spec (c_parent c) (b_parent b)) as [Hl|Hl].
      + specialize (C2 Hl). destruct (close_at_gen F ad d osp h b) as [[? ?] [|e|]]; simpl in *; congruence.
      + rewrite (C1 Hl) in E2. simpl in E2. congruence.
    - unfold close_at_gen in E2. rewrite Ec in E2. simpl in E2. congruence. }
  destruct o; simpl in Ho; try tauto; subst; simpl in E; destruct (nth_error env k); try discriminate; eapply G; eauto.
Qed.
Print Assumptions C05_unchanged.

(** The documentation also promises CloseAtError when the checkpointed place is not a sibling at the
    current level any more ([MGone]: an earlier checkpoint of that level was used to wrap it).  The
    code never keeps it: *)
Theorem C05_swallowed : forall T F (ops : list (op T)) a rs o k lv, vec_flavor F ->
  describes F ops a rs -> closes_at k o ->
  nth_error (a_marks a) k = Some (MGone lv) -> lv = level (a_open a) -> full F a = false ->
  snd (step F (run_world F ops) o) = RNode (a_n a).
Proof.
  intros T F ops a rs o k lv HF Ha Ho Em Hl Hfull.
  destruct (refines F HF ops a rs Ha) as (w & Ew & HR).
  pose proof (run_wok T F ops HF) as Hw. unfold run_world in *. rewrite Ew in *. simpl fst in *. clear Ew Ha.
  destruct HR as [HB HM]. pose proof (mi_ok _ _ _ _ _ _ _ HM) as HM'.
  destruct (Forall2_nth _ _ _ _ _ HM' Em) as (ad & Ead & c & Ec & Ep & _).
  assert (Hp : c_parent c = b_parent (w_builder w)) by (rewrite Ep, (br_parent _ _ HB); auto).
  assert (Hlen : tree_len (b_tree (w_builder w)) = a_n a) by apply (br_len _ _ HB).
  assert (G : forall d osp, snd (close_at_gen F ad d osp (w_heap w) (w_builder w)) = Ok (a_n a)).
  { intros d osp. destruct (close_at_cases F HF _ _ ad c d osp (proj1 Hw) Ec) as
      [(e & -> & [[_ He]|(_ & _ & He)])|[(b' & -> & _)|(lid & h' & b' & _ & _ & -> & _)]]; simpl; try congruence.
    - rewrite Hlen, pointer_new_spec in He. unfold full in Hfull. rewrite Hfull in He. congruence. }
  destruct o; simpl in Ho; try tauto; subst k; simpl; rewrite Ead; unfold close_at, close_at_with;
    match goal with |- context [close_at_gen F ad ?d ?o _ _] => specialize (G d o); destruct (close_at_gen F ad d o _ _) as [[? ?] ?] end;
    simpl in *; subst; auto.
Qed.
Print Assumptions C05_swallowed.

(** A concrete case, and what follows: both checkpoints are taken at the root level; the first one,
    closed first, wraps the place of the second; closing the second then succeeds, and the next
    token is attached to a node inside the wrapper although it has no parent: walking the tree
    misses a root. *)
Theorem C05_swallowed_refuted : exists (ops : list (op nat)) (t : tree nat),
  ops = [OCheckpoint; OToken 10 1; OCheckpoint; OToken 11 1; OCloseAt 0 1; OCloseAt 1 2; OToken 7 1] /\
  run_outs flavor_default ops = [RCheckpoint; RNode 0; RCheckpoint; RNode 1; RNode 2; RNode 3; RNode 4] /\
  builds flavor_default ops t /\
  option_map l_parent (nth_error (t_nodes t) 4) = Some None /\
  option_map l_prev (nth_error (t_nodes t) 4) = Some (Some 3) /\
  option_map l_parent (nth_error (t_nodes t) 3) = Some (Some 2) /\
  calls (total (children_next (t_nodes t))) 3 (tree_children t) =
    Ok [option_map (fun l => (2, l)) (nth_error (t_nodes t) 2); None; None].
Proof.
  eexists; eexists. split; [reflexivity|]. vm_compute. repeat split; reflexivity.
Qed.
Print Assumptions C05_swallowed_refuted.

(** The hypotheses of C05_error_partial can be met, and both answers occur. *)
Example C05_example :
  well_used flavor_default demo_ops /\
  nth_error (taken_in [] (firstn 6 demo_ops) (run_outs flavor_default (firstn 6 demo_ops))) 0 = Some (Some 0) /\
  open_nodes [] (firstn 6 demo_ops) (run_outs flavor_default (firstn 6 demo_ops)) = [3; 0] /\
  snd (step flavor_default (run_world flavor_default (firstn 6 demo_ops)) (OCloseAt 0 99)) = RErr CloseAtError /\
  snd (step flavor_default (run_world flavor_default (firstn 8 demo_ops)) (OCloseAt 0 11)) = RNode 4.
Proof. split; [intros E; vm_compute in E; discriminate|]. vm_compute. auto 10. Qed.

(** ** C06: taking a checkpoint has no side effects *)

(** For every history, including those that misuse checkpoints, and every set of extra [checkpoint]
    calls put into it anywhere: the other calls return what they returned without, and the builder
    ends with the same tree and cursor; [build] gives the same. *)
Theorem C06_free : forall T F (l : list (noted T)), vec_flavor F ->
  kept_results l (run_outs F (with_extra [] 0 l)) = run_outs F (without_extra l) /\
  tree_so_far F (with_extra [] 0 l) = tree_so_far F (without_extra l) /\
  cursor (w_builder (run_world F (with_extra [] 0 l))) = cursor (w_builder (run_world F (without_extra l))) /\
  build (w_builder (run_world F (with_extra [] 0 l))) = build (w_builder (run_world F (without_extra l))).
Proof.
  intros T F l HF.
  destruct (sim_run F HF l [] 0 world_new world_new (wok_new) (late_new) (wok_new) (late_new) (sim_new F)) as [E [m Em]].
  unfold run_outs, tree_so_far, run_world. split; [exact E|]. rewrite Em. auto.
Qed.
Print Assumptions C06_free.

(** Extra checkpoints before, between and after the calls of the demo history, whose own checkpoint
    becomes the third of five. *)
Definition demo_noted : list (noted nat) :=
  [Extra; Kept OClose; Kept (OOpen 10); Extra; Kept (OToken 1 3); Kept OCheckpoint; Kept (OToken 2 2);
   Extra; Kept (OOpen 12); Kept (OCloseAt 0 99); Kept OClose; Kept (OCloseAt 0 11); Extra;
   Kept (OTokenEmpty 3); Kept OClose; Kept (OTokenWith 4 (Span 5 9))].
Example C06_example : without_extra demo_noted = demo_ops /\
  nth_error (with_extra [] 0 demo_noted) 11 = Some (OCloseAt 2 11) /\
  run_outs flavor_default (with_extra [] 0 demo_noted) <> run_outs flavor_default demo_ops /\
  nth_error (run_outs flavor_default (with_extra [] 0 demo_noted)) 11 = Some (RNode 4).
Proof. vm_compute. repeat split; auto. discriminate. Qed.
