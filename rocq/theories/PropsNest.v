(** C04: checkpoints can be nested and reused. *)
From Coq Require Import Lia.
From Verif Require Import Base Pointer Index Tree Builder Hist Spec SpecMarks Rep Marks Refine AllHist StepFacts Sim DocInv.
From Verif Require Import Node Iter Demo PropsSafe PropsMarks Place.

(** ** Checkpoints taken at the same place *)
Section SamePlace.
Context {T : Type}.
Variable F : flavor.
Hypothesis HF : vec_flavor F.
Implicit Types (w : world T) (o : op T) (ops : list (op T)).

Lemma step_keeps_cells w o : (forall i, snd (step F w o) <> RNode i) ->
  forall a c, nth_error (w_heap w) a = Some c -> nth_error (w_heap (fst (step F w o))) a = Some c.
Proof.
  intros Hn a c Ec. destruct (local o) eqn:Hl; [destruct (local_shape F w o Hl) as (-> & _); auto|].
  assert (CA : forall k d osp, let st := match nth_error (w_env w) k with None => (w, RNoHandle) | Some a =>
        let '(h, b, r) := close_at_gen F a d osp (w_heap w) (w_builder w) in (World h b (w_env w), out_node r) end in
      (forall i, snd st <> RNode i) -> nth_error (w_heap (fst st)) a = Some c).
  { intros k d osp. destruct (nth_error (w_env w) k) as [x|]; simpl; auto.
    pose proof (close_at_shape F d osp x (w_heap w) (w_builder w)) as G.
    destruct (close_at_gen F x d osp (w_heap w) (w_builder w)) as [[h' b'] r]. simpl.
    destruct G as (_ & _ & [->|(i & p & -> & Hp & ->)]); auto. intros Hx. destruct (Hx i). auto. }
  destruct o; simpl in Hl; try discriminate.
  - destruct w as [h b env]. simpl in *. unfold checkpoint in *. destruct (pointer_new _ _); simpl in *; auto.
    destruct (b_checkpoint b) as [x|]; [|simpl in *; rewrite nth_error_app1; auto; eapply nth_lt; eauto].
    destruct (nth_error h x); [destruct (_ && _); simpl in *; auto|]; simpl in *; rewrite nth_error_app1; auto; eapply nth_lt; eauto.
  - exact (CA k d None Hn).
  - exact (CA k d (Some sp) Hn).
Qed.

Lemma step_env w o : exists l, w_env (fst (step F w o)) = w_env w ++ l /\
  length l = match snd (step F w o) with RCheckpoint => 1 | _ => 0 end.
Proof.
  assert (NC : forall r, out_node r <> RCheckpoint) by (intros [|e|]; simpl; congruence).
  assert (NC' : forall r, out_unit r <> RCheckpoint) by (intros [|e|]; simpl; congruence).
  destruct (local o) eqn:Hl.
  - exists []. destruct (local_shape F w o Hl) as (_ & -> & _). rewrite app_nil_r. split; auto. simpl.
    destruct w as [h b env].
    assert (snd (step F (World h b env) o) <> RCheckpoint).
    { destruct o; simpl in *; try discriminate.
      - destruct (open F d b); simpl; auto.
      - destruct (open_with F d sp b); simpl; auto.
      - destruct (close b); simpl; auto.
      - destruct (token F d len b); simpl; auto.
      - destruct (token_empty F d b); simpl; auto.
      - destruct (token_with F d sp b); simpl; auto. }
    destruct (snd (step F (World h b env) o)); auto. congruence.
  - destruct w as [h b env]. destruct o; simpl in Hl; try discriminate; simpl.
    + unfold checkpoint. destruct (pointer_new _ _) as [n|]; simpl; [|exists []; rewrite app_nil_r; auto].
      destruct (b_checkpoint b) as [x|]; [|simpl; eauto].
      destruct (nth_error h x); [destruct (_ && _)|]; simpl; eauto.
    + exists []. rewrite app_nil_r. destruct (nth_error env k); [|simpl; auto].
      destruct (close_at F n d h b) as [[h' b'] [|e|]]; simpl; auto.
    + exists []. rewrite app_nil_r. destruct (nth_error env k); [|simpl; auto].
      destruct (close_at_with F n d sp h b) as [[h' b'] [|e|]]; simpl; auto.
Qed.

Lemma run_env ops : forall w, exists l, w_env (fst (run F w ops)) = w_env w ++ l /\
  length l = obtained (snd (run F w ops)).
Proof.
  induction ops as [|o ops IH]; intros w; simpl; [exists []; rewrite app_nil_r; auto|].
  destruct (step_env w o) as (l & E1 & E2). destruct (step F w o) as [w1 r]. simpl in *.
  destruct (IH w1) as (l' & E3 & E4). destruct (run F w1 ops) as [w2 rs]. simpl in *.
  exists (l ++ l'). rewrite E3, E1, <- app_assoc, app_length, E2, E4. split; auto. unfold obtained. simpl. destruct r; auto.
Qed.

(** A standstill keeps the place and the cells. *)
Lemma close_parent_unit h (b : builder T) env : snd (step F (World h b env) OClose) <> RUnit ->
  wok (World h b env) -> fst (step F (World h b env) OClose) = World h b env.
Proof.
  intros Hn Hw. destruct (step_ok F HF (World h b env) OClose Hw) as [_ Hf]. simpl in *. unfold close in *.
  destruct (b_parent b) as [hd|]; simpl in *; auto.
  destruct (nth_error _ hd) as [l|]; simpl in *; [|tauto].
  destruct (l_parent l) as [p|]; simpl in *; [|congruence]. destruct (nth_error _ p); simpl in *; [congruence|tauto].
Qed.

Lemma standstill_step w o : wok w -> (forall i, snd (step F w o) <> RNode i) ->
  (o = OClose -> snd (step F w o) <> RUnit) ->
  tree_len (b_tree (w_builder (fst (step F w o)))) = tree_len (b_tree (w_builder w)) /\
  b_parent (w_builder (fst (step F w o))) = b_parent (w_builder w).
Proof.
  intros Hw Hn Hc. destruct (step_ok F HF w o Hw) as [Hw1 Hf]. split.
  - rewrite (step_len F HF w o Hf). destruct (snd (step F w o)) eqn:E; auto. destruct (Hn id); auto.
  - assert (CA : forall k d osp, let st := match nth_error (w_env w) k with None => (w, RNoHandle) | Some a =>
        let '(h, b, r) := close_at_gen F a d osp (w_heap w) (w_builder w) in (World h b (w_env w), out_node r) end in
        b_parent (w_builder (fst st)) = b_parent (w_builder w)).
    { intros k d osp. destruct (nth_error (w_env w) k) as [x|]; simpl; auto.
      pose proof (close_at_shape F d osp x (w_heap w) (w_builder w)) as G.
      destruct (close_at_gen F x d osp (w_heap w) (w_builder w)) as [[h' b'] r]. simpl. tauto. }
    destruct w as [h b env]. destruct o.
    + simpl in *. unfold open in *. destruct (insert_fields F d (span_point (b_cursor b)) b) as [A B].
      destruct (insert F d _ b) as [b1 [i|e|]]; simpl in *; auto. destruct (Hn i); auto.
    + simpl in *. unfold open_with in *. destruct (insert_fields F d sp b) as [A B].
      destruct (insert F d _ b) as [b1 [i|e|]]; simpl in *; auto. destruct (Hn i); auto.
    + rewrite close_parent_unit; auto.
    + simpl. destruct (token_fields F d len b) as [A B]. destruct (token F d len b); auto.
    + simpl. unfold token_empty. destruct (token_fields F d len_EMPTY b) as [A B]. destruct (token F d len_EMPTY b); auto.
    + simpl. unfold token_with. destruct (insert_fields F d sp b) as [A B]. destruct (insert F d _ b) as [b1 [i|e|]]; simpl in *; auto.
      destruct (tree_push_index _ _ _ _); simpl; auto.
    + simpl. unfold checkpoint. destruct (pointer_new _ _); auto. destruct (b_checkpoint b) as [x|]; auto.
      destruct (nth_error h x); auto. destruct (_ && _); auto.
    + exact (CA k d None).
    + exact (CA k d (Some sp)).
    + auto.
Qed.

Lemma standstill_run ops : forall w, wok w -> standstill ops (snd (run F w ops)) ->
  tree_len (b_tree (w_builder (fst (run F w ops)))) = tree_len (b_tree (w_builder w)) /\
  b_parent (w_builder (fst (run F w ops))) = b_parent (w_builder w) /\
  (forall a c, nth_error (w_heap w) a = Some c -> nth_error (w_heap (fst (run F w ops))) a = Some c).
Proof.
  induction ops as [|o ops IH]; intros w Hw; [simpl; auto|].
  pose proof (step_keeps_cells w o) as KC. pose proof (standstill_step w o Hw) as SS.
  pose proof (proj1 (step_ok F HF w o Hw)) as Hw1. cbn [run].
  destruct (step F w o) as [w1 r]. cbn [fst snd] in *. specialize (IH w1 Hw1).
  destruct (run F w1 ops) as [w2 rs]. cbn [fst snd] in *. intros Hs.
  assert (Hr : forall i, r <> RNode i) by (intros i ->; destruct o; exact Hs).
  assert (Hc : o = OClose -> r <> RUnit) by (intros -> ->; exact Hs).
  assert (Hs' : standstill ops rs).
  { destruct o, r; simpl in Hs; auto; try tauto; try (destruct (Hr id); auto); destruct (Hc eq_refl); auto. }
  destruct (SS Hr Hc) as [-> ->] in IH. destruct (IH Hs') as (A & B & C). auto.
Qed.

Lemma swapped_step i j a w o o' : nth_error (w_env w) i = Some a -> nth_error (w_env w) j = Some a ->
  swapped i j o o' -> step F w o = step F w o'.
Proof.
  intros Ei Ej H. inversion H as [|k k' d E|k k' d sp E]; subst; auto.
  - destruct E as [->|[[->| ->] [->| ->]]]; auto; simpl; rewrite Ei, Ej; auto.
  - destruct E as [->|[[->| ->] [->| ->]]]; auto; simpl; rewrite Ei, Ej; auto.
Qed.

Lemma swapped_run i j a ops ops' : Forall2 (swapped i j) ops ops' -> forall w,
  nth_error (w_env w) i = Some a -> nth_error (w_env w) j = Some a -> run F w ops = run F w ops'.
Proof.
  induction 1 as [|o o' ops ops' Ho H IH]; intros w Ei Ej; auto. simpl.
  rewrite <- (swapped_step i j a w o o' Ei Ej Ho). destruct (step_env w o) as (l & E & _).
  destruct (step F w o) as [w1 r]. simpl in E. rewrite (IH w1); auto;
    rewrite E, nth_error_app1; auto; eapply nth_lt; eauto.
Qed.
End SamePlace.

Lemma run_length T F (ops : list (op T)) : forall w, length (snd (run F w ops)) = length ops.
Proof.
  induction ops as [|o ops IH]; intros w; auto. simpl. destruct (step F w o) as [w1 r].
  specialize (IH w1). destruct (run F w1 ops). simpl in *. auto.
Qed.
Lemma last_error_snoc A (l : list A) x : last_error (l ++ [x]) = Some x.
Proof. induction l as [|y l IH]; auto. simpl. rewrite IH. destruct (l ++ [x]) eqn:E; auto. destruct l; discriminate. Qed.

(** C04, interchangeable.  In every history (also one that misuses checkpoints): two checkpoints with
    a standstill between them can be used for each other, in any calls afterwards, with the same
    results and the same state. *)
Theorem C04_same_place : forall T F (pre mid suf suf' : list (op T)), vec_flavor F ->
  let before := pre ++ OCheckpoint :: mid ++ [OCheckpoint] in
  let rs := run_outs F before in
  let i := obtained (run_outs F pre) in
  let j := pred (obtained rs) in
  last_error rs = Some RCheckpoint ->
  standstill mid (skipn (S (length pre)) (removelast rs)) ->
  Forall2 (swapped i j) suf suf' ->
  run F world_new (before ++ suf) = run F world_new (before ++ suf').
Proof.
  intros T F pre mid suf suf' HF before rs i j Hlast Hstill Hsw.
  pose proof (run_wok T F pre HF) as Hw0.
  pose proof (late_run F HF pre world_new wok_new late_new) as Hl0.
  destruct (run_env F pre world_new) as (e0 & Ee0 & Le0).
  pose proof (run_length _ F pre world_new) as Len0.
  assert (Hrun : run F world_new before =
    let '(w0, r0) := run F world_new pre in let '(w1, r1) := step F w0 OCheckpoint in
    let '(w2, r2) := run F w1 mid in let '(w3, r3) := step F w2 OCheckpoint in (w3, r0 ++ r1 :: r2 ++ [r3])).
  { unfold before. rewrite run_app. destruct (run F world_new pre) as [w0 r0].
    cbn [run]. destruct (step F w0 OCheckpoint) as [w1 r1]. rewrite run_app. destruct (run F w1 mid) as [w2 r2].
    cbn [run]. destruct (step F w2 OCheckpoint) as [w3 r3]. auto. }
  unfold run_outs, run_world in *.
  rewrite !run_app. unfold j, i, rs in *. clear j i rs. rewrite Hrun in *. clear Hrun before.
  destruct (run F world_new pre) as [w0 r0]. cbn [fst snd] in *.
  destruct (step_env F w0 OCheckpoint) as (e1 & Ee1 & Le1).
  pose proof (proj1 (step_ok F HF w0 OCheckpoint Hw0)) as Hw1. pose proof (late_step F HF w0 OCheckpoint Hw0 Hl0) as Hl1.
  destruct (is_full F (w_builder w0)) eqn:Ef0.
  { exfalso. rewrite checkpoint_full in * by auto. cbn [fst snd] in *.
    pose proof (standstill_run F HF mid w0 Hw0) as ST. destruct (run F w0 mid) as [w2 r2]. cbn [fst snd] in *.
    destruct (step F w2 OCheckpoint) as [w3 r3] eqn:E3. cbn [fst snd] in *.
    rewrite app_comm_cons, app_assoc, last_error_snoc in Hlast. injection Hlast as ->.
    rewrite app_comm_cons, app_assoc, removelast_last in Hstill.
    rewrite <- Len0, skipn_app, skipn_all2, Nat.sub_succ_l, Nat.sub_diag in Hstill by lia. simpl in Hstill.
    destruct (ST Hstill) as (A & _). unfold is_full in Ef0. rewrite <- A in Ef0. fold (is_full F (w_builder w2)) in Ef0.
    change (step F w2 OCheckpoint = (w3, RCheckpoint)) in E3. rewrite checkpoint_full in E3 by auto. discriminate. }
  destruct (checkpoint_shape F w0 Hw0 Hl0 Ef0) as (a & h & m & E1 & Ea & _).
  rewrite E1 in *. cbn [fst snd] in *. cbn [w_heap w_builder w_env] in *.
  set (w1 := World h (set_b_checkpoint m (w_builder w0)) (w_env w0 ++ [a])) in *.
  pose proof (proj1 (run_ok F HF mid w1 Hw1)) as Hw2. pose proof (late_run F HF mid w1 Hw1 Hl1) as Hl2.
  pose proof (standstill_run F HF mid w1 Hw1) as ST. destruct (run_env F mid w1) as (e2 & Ee2 & Le2).
  destruct (run F w1 mid) as [w2 r2]. cbn [fst snd] in *.
  destruct (step F w2 OCheckpoint) as [w3 r3] eqn:E3. cbn [snd] in *.
  rewrite app_comm_cons, app_assoc, last_error_snoc in Hlast. injection Hlast as ->.
  rewrite app_comm_cons, app_assoc, removelast_last in Hstill.
  rewrite <- Len0, skipn_app, skipn_all2, Nat.sub_succ_l, Nat.sub_diag in Hstill by lia. simpl in Hstill.
  destruct (ST Hstill) as (A & B & C). clear ST.
  assert (Ef2 : is_full F (w_builder w2) = false) by (unfold is_full; rewrite A; exact Ef0).
  destruct (checkpoint_shape F w2 Hw2 Hl2 Ef2) as (a3 & h3 & m3 & E3' & _ & _ & _ & U3).
  rewrite E3 in E3'. injection E3' as ->.
  assert (a = a3) as <-. { apply U3. rewrite A, B. apply C. exact Ea. }
  assert (Ee : e0 = w_env w0) by (symmetry; exact Ee0).
  assert (Hj : pred (obtained (r0 ++ RCheckpoint :: r2 ++ [RCheckpoint])) = length (w_env w2)).
  { rewrite Ee2. unfold w1. simpl. rewrite !app_length, Le2. simpl. rewrite <- Ee, Le0. unfold obtained.
    rewrite filter_app, app_length. simpl. rewrite filter_app, app_length. simpl. lia. }
  erewrite (swapped_run F (obtained r0) _ a suf suf' Hsw); [reflexivity|..]; cbn [w_env].
  - rewrite Ee2. unfold w1. cbn [w_env]. rewrite <- !app_assoc, nth_error_app2 by (rewrite <- Ee; lia).
    rewrite <- Le0, Ee, Nat.sub_diag. auto.
  - rewrite Hj, nth_error_app2, Nat.sub_diag by lia. auto.
Qed.
Print Assumptions C04_same_place.

(** Three checkpoints at one place, with refused calls in between. *)
Example C04_same_place_example :
  let pre := [OOpen 1; OToken 2 1] : list (op nat) in
  let mid := [OCheckpoint; OCloseAt 7 1] : list (op nat) in
  let before := pre ++ OCheckpoint :: mid ++ [OCheckpoint] in
  last_error (run_outs flavor_default before) = Some RCheckpoint /\
  standstill mid (skipn (S (length pre)) (removelast (run_outs flavor_default before))) /\
  obtained (run_outs flavor_default pre) = 0 /\ pred (obtained (run_outs flavor_default before)) = 2.
Proof. vm_compute. auto. Qed.

(** ** Reuse and nesting *)

Section Uses.
Context {T : Type}.
Variable F : flavor.
Implicit Types (a : doc T) (o : op T) (ops : list (op T)).

Lemma a_marks_obtained ops : forall a a' rs, a_run F a ops = Some (a', rs) -> length (a_marks a') = length (a_marks a) + obtained rs.
Proof.
  induction ops as [|o ops IH]; intros a a' rs E; simpl in E.
  - injection E as <- <-. unfold obtained. simpl. lia.
  - destruct (a_step F a o) as [[a1 r]|] eqn:E1; [|discriminate].
    destruct (a_run F a1 ops) as [[a2 rs']|] eqn:E2; [|discriminate]. injection E as <- <-.
    rewrite (IH _ _ _ E2). apply a_step_shape in E1. unfold obtained. simpl.
    destruct E1 as
    [o a' r E1 E3 E4 E5 _ Hr|o d sp fs a' Ev E1 E3 E4 E5 E6|f fs fs' x a' E0 Ex _ _ E1 E3 E4 E5 E6
    |o d sp a' Ev E1 E3 E4 E5 _|a' E1 E3 E4 E5|o k d sp pos x w a' Ek Ev Em Es E1 E3 E4 E5];
    rewrite ?E5, ?E6, ?app_length, ?map_length; simpl; try lia.
    destruct r; simpl; try lia. congruence.
Qed.

Lemma a_run_length ops : forall a a' rs, a_run F a ops = Some (a', rs) -> length rs = length ops.
Proof.
  induction ops as [|o ops IH]; intros a a' rs E; simpl in E; [injection E as <- <-; auto|].
  destruct (a_step F a o) as [[a1 r]|] eqn:E1; [|discriminate].
  destruct (a_run F a1 ops) as [[a2 rs']|] eqn:E2; [|discriminate]. injection E as <- <-. simpl. f_equal. eauto.
Qed.

Lemma intact_start a (fs : list (frame T)) : forall cur n, stacked n fs -> (forall i, level (a_open a) = Some i -> n <= i) ->
  level (a_open a) <> None -> intact (level (a_open a)) (a_cur a) cur fs.
Proof.
  induction fs as [|f fs IH]; intros cur n Hs Hi Hn; simpl; split; auto.
  - intros E. congruence.
  - destruct Hs as [Hs _]. intros E. specialize (Hi _ (eq_sym E)). lia.
  - destruct Hs as [Hs1 Hs2]. apply (IH _ (f_id f)); auto. intros i Ei. specialize (Hi i Ei). lia.
Qed.
Lemma intact_now a : doc_ok a -> intact (level (a_open a)) (a_cur a) (a_cur a) (a_open a).
Proof.
  intros [Hs _ _]. destruct (a_open a) as [|f fs] eqn:E; simpl.
  - split; auto. intros _. exists []. rewrite app_nil_r. auto.
  - split. { intros _. exists []. rewrite app_nil_r. auto. }
    pose proof (intact_start a fs (f_left f) (f_id f)) as G. rewrite E in G. simpl in *. apply G; [tauto| |congruence].
    intros i Ei. injection Ei as <-. lia.
Qed.
Lemma level_below a i : doc_ok a -> level (a_open a) = Some i -> i < a_n a.
Proof. intros [Hs _ _]. apply stacked_level. auto. Qed.

Lemma held_now a a1 : doc_ok a -> a_step F a OCheckpoint = Some (a1, RCheckpoint) ->
  held (level (a_open a)) (a_cur a) (length (a_marks a)) True a1.
Proof.
  intros Hok E. cbn in E. unfold a_checkpoint in E. destruct (full F a); [discriminate|]. injection E as <-.
  constructor; simpl.
  - intros _. rewrite nth_error_app2, Nat.sub_diag by lia. auto.
  - intros k q Hk Eq. destruct (Nat.eq_dec k (length (a_marks a))) as [->|].
    + rewrite nth_error_app2, Nat.sub_diag in Eq by lia. simpl in Eq. injection Eq as <-. lia.
    + assert (k < length (a_marks a ++ [MAt (level (a_open a)) (length (a_cur a))])) by (apply nth_error_Some; congruence).
      rewrite app_length in *; simpl in *; lia.
  - apply intact_now. auto.
  - intros i. apply level_below. auto.
Qed.
Lemma held_before a : doc_ok a -> held (level (a_open a)) (a_cur a) (length (a_marks a)) False a.
Proof.
  intros Hok. constructor; simpl; try tauto.
  - intros k q Hk Eq. assert (k < length (a_marks a)) by (apply nth_error_Some; congruence). lia.
  - apply intact_now. auto.
  - intros i. apply level_below. auto.
Qed.

(** Using a held checkpoint at its level. *)
Lemma held_use L base j a o d : held L base j True a -> level (a_open a) = L -> full F a = false ->
  closes_at j o -> op_value o = Some d ->
  exists added k sp a', a_cur a = base ++ added /\
    a_step F a o = Some (a', RNode (a_n a)) /\ a_cur a' = base ++ [Nd (a_n a) k d sp added] /\
    map f_id (a_open a') = map f_id (a_open a) /\ map f_left (a_open a') = map f_left (a_open a).
Proof.
  intros Hh El Hf Hc Hd. destruct (intact_head _ _ _ _ (hd_intact _ _ _ _ _ Hh) El) as [rest Er]. exists rest.
  pose proof (hd_mark _ _ _ _ _ Hh I) as Hm.
  assert (G : forall osp, exists k sp a', a_close_at F j d osp a = Some (a', RNode (a_n a)) /\ a_cur a' = base ++ [Nd (a_n a) k d sp rest] /\
     map f_id (a_open a') = map f_id (a_open a) /\ map f_left (a_open a') = map f_left (a_open a)).
  { intros osp. unfold a_close_at. rewrite Hm. simpl mark_level. rewrite El.
    destruct (opt_nat_eqb_spec L L); [|congruence]. simpl negb. cbv iota. rewrite Hf.
    rewrite Er, skipn_app, skipn_all, Nat.sub_diag. simpl. destruct rest as [|x w].
    - eexists _, _, _. split; [reflexivity|]. split; [simpl; rewrite Er, app_nil_r; reflexivity|]. apply same_touch.
    - eexists _, _, _. split; [reflexivity|]. split; [simpl; rewrite firstn_app, firstn_all, Nat.sub_diag; simpl; rewrite app_nil_r; reflexivity|auto]. }
  destruct o; simpl in Hc, Hd; try tauto; injection Hd as ->; subst.
  - destruct (G None) as (k & sp & a' & A & B & C). exists k, sp, a'. auto.
  - destruct (G (Some sp)) as (k & sp' & a' & A & B & C). exists k, sp', a'. auto.
Qed.
End Uses.

(** C04, one use.  After any history [pre] (which ends with the siblings [a_cur a0] at the current
    level) take a checkpoint; then make any calls [mid] that use only this checkpoint and later
    ones: they may use this one too, any number of times.  Then at the same level, unless the
    tree is full, closing the checkpoint puts exactly the siblings added since under a new node and
    leaves those before it alone.  (The results are those of the program: see [run_outs].) *)
Theorem C04_wraps : forall T F (pre mid : list (op T)) a0 rs0 a rs o d, vec_flavor F ->
  describes F pre a0 rs0 ->
  describes F (pre ++ OCheckpoint :: mid) a rs ->
  nth_error rs (length pre) = Some RCheckpoint ->
  let j := obtained rs0 in
  since j mid ->
  level (a_open a) = level (a_open a0) -> full F a = false ->
  closes_at j o -> op_value o = Some d ->
  exists added k sp a',
    a_cur a = a_cur a0 ++ added /\
    describes F (pre ++ OCheckpoint :: mid ++ [o]) a' (rs ++ [RNode (a_n a)]) /\
    run_outs F (pre ++ OCheckpoint :: mid ++ [o]) = rs ++ [RNode (a_n a)] /\
    a_cur a' = a_cur a0 ++ [Nd (a_n a) k d sp added] /\
    map f_id (a_open a') = map f_id (a_open a) /\ map f_left (a_open a') = map f_left (a_open a).
Proof.
  intros T F pre mid a0 rs0 a rs o d HF D0 D Hr j Hs El Hf Hc Hd.
  unfold describes in *. pose proof (a_marks_obtained F pre _ _ _ D0) as Hj. simpl in Hj.
  pose proof (a_run_length F pre _ _ _ D0) as Hlen.
  pose proof D as D'. rewrite a_run_app, D0 in D'. cbn [a_run] in D'.
  destruct (a_step F a0 OCheckpoint) as [[a1 r]|] eqn:E1; [|discriminate].
  destruct (a_run F a1 mid) as [[a2 rs2]|] eqn:E2; [|discriminate]. injection D' as -> <-.
  rewrite <- Hlen, nth_error_app2, Nat.sub_diag in Hr by lia. simpl in Hr. injection Hr as ->.
  assert (Hok : doc_ok a0) by (eapply (doc_ok_run F); [apply doc_ok_new|exact D0]).
  pose proof (held_now F _ _ Hok E1) as Hh.
  assert (Hh' : held (level (a_open a0)) (a_cur a0) j True a).
  { unfold j. rewrite <- Hj. eapply (held_run F); [exact Hh| |exact E2]. rewrite Hj. exact Hs. }
  destruct (held_use F _ _ _ _ _ _ Hh' El Hf Hc Hd) as (added & k & sp & a' & A & B & C & D1 & D2).
  assert (Dn : a_run F doc_new (pre ++ OCheckpoint :: mid ++ [o]) = Some (a', (rs0 ++ RCheckpoint :: rs2) ++ [RNode (a_n a)])).
  { rewrite app_comm_cons, app_assoc, a_run_app, D. simpl. rewrite B. auto. }
  exists added, k, sp, a'. repeat (split; auto).
  destruct (refines F HF _ _ _ Dn) as (w & Ew & _). unfold run_outs. rewrite Ew. auto.
Qed.
Print Assumptions C04_wraps.

(** C04, reuse.  The checkpoint was closed, giving the node [Nd i k d sp added]; then any calls with
    later checkpoints only; closing it again wraps that very node together with what was added
    since. *)
Theorem C04_again : forall T F (pre mid mid2 : list (op T)) a0 rs0 a rs a2 rs2 o d o2 d2, vec_flavor F ->
  describes F pre a0 rs0 ->
  describes F (pre ++ OCheckpoint :: mid) a rs ->
  nth_error rs (length pre) = Some RCheckpoint ->
  let j := obtained rs0 in
  since j mid ->
  level (a_open a) = level (a_open a0) -> full F a = false ->
  closes_at j o -> op_value o = Some d ->
  since (obtained rs) mid2 ->
  describes F (pre ++ OCheckpoint :: mid ++ o :: mid2) a2 rs2 ->
  level (a_open a2) = level (a_open a0) -> full F a2 = false ->
  closes_at j o2 -> op_value o2 = Some d2 ->
  exists added k sp since k2 sp2 a',
    a_cur a = a_cur a0 ++ added /\
    a_cur a2 = a_cur a0 ++ Nd (a_n a) k d sp added :: since /\
    describes F (pre ++ OCheckpoint :: mid ++ o :: mid2 ++ [o2]) a' (rs2 ++ [RNode (a_n a2)]) /\
    run_outs F (pre ++ OCheckpoint :: mid ++ o :: mid2 ++ [o2]) = rs2 ++ [RNode (a_n a2)] /\
    a_cur a' = a_cur a0 ++ [Nd (a_n a2) k2 d2 sp2 (Nd (a_n a) k d sp added :: since)].
Proof.
  intros T F pre mid mid2 a0 rs0 a rs a2 rs2 o d o2 d2 HF D0 D Hr j Hs El Hf Hc Hd Hs2 D2 El2 Hf2 Hc2 Hd2.
  destruct (C04_wraps T F pre mid a0 rs0 a rs o d HF D0 D Hr Hs El Hf Hc Hd) as (added & k & sp & a' & A & Da' & _ & C & M1 & M2).
  assert (Hj : j <= obtained rs).
  { unfold describes in *. rewrite a_run_app, D0 in D. destruct (a_run F a0 (OCheckpoint :: mid)) as [[x y]|]; [|discriminate].
    injection D as -> <-. unfold j, obtained. rewrite filter_app, app_length. lia. }
  assert (Hr2 : nth_error rs2 (length pre) = Some RCheckpoint).
  { unfold describes in *. change (pre ++ OCheckpoint :: mid ++ o :: mid2) with (pre ++ (OCheckpoint :: mid) ++ o :: mid2) in D2.
    rewrite app_assoc, a_run_app, D in D2. destruct (a_run F a (o :: mid2)) as [[x y]|]; [|discriminate].
    injection D2 as -> <-. rewrite nth_error_app1; auto. apply nth_error_Some. congruence. }
  assert (Hs' : since j (mid ++ o :: mid2)).
  { intros o' k' Hin Hk'. apply in_app_iff in Hin as [Hin|[<-|Hin]].
    - eapply Hs; eauto.
    - destruct o; simpl in *; try tauto; subst; auto.
    - specialize (Hs2 o' k' Hin Hk'). lia. }
  destruct (C04_wraps T F pre (mid ++ o :: mid2) a0 rs0 a2 rs2 o2 d2 HF D0 D2 Hr2 Hs' El2 Hf2 Hc2 Hd2)
    as (added2 & k2 & sp2 & a'' & A2 & Da'' & Dr'' & C2 & _).
  assert (Eo : (pre ++ OCheckpoint :: mid ++ o :: mid2) ++ [o2] = pre ++ OCheckpoint :: mid ++ o :: mid2 ++ [o2]).
  { rewrite <- !app_assoc. simpl. rewrite <- app_assoc. auto. }
  assert (exists rest, a_cur a2 = a_cur a' ++ rest) as [rest Er].
  { unfold describes in *. replace (pre ++ OCheckpoint :: mid ++ o :: mid2) with ((pre ++ OCheckpoint :: mid ++ [o]) ++ mid2) in D2
      by (rewrite <- !app_assoc; simpl; rewrite <- app_assoc; auto).
    pose proof (a_marks_obtained F _ _ _ _ Da') as Hm. simpl in Hm.
    rewrite a_run_app, Da' in D2. destruct (a_run F a' mid2) as [[x y]|] eqn:Ex; [|discriminate]. injection D2 as -> <-.
    assert (Hok : doc_ok a') by (eapply (doc_ok_run F); [apply doc_ok_new|exact Da']).
    pose proof (held_before a' Hok) as Hh.
    assert (Hso : since (length (a_marks a')) mid2).
    { rewrite Hm. unfold obtained in *. rewrite filter_app, app_length. simpl. rewrite Nat.add_0_r. exact Hs2. }
    pose proof (held_run F _ _ _ _ _ _ _ _ Hh Hso Ex) as Hh2.
    eapply intact_head; [exact (hd_intact _ _ _ _ _ Hh2)|]. rewrite El2, <- El. symmetry. apply level_map. auto. }
  rewrite C in Er. rewrite <- app_assoc in Er. simpl in Er.
  assert (added2 = Nd (a_n a) k d sp added :: rest) as ->.
  { rewrite Er in A2. apply app_inv_head in A2. auto. }
  rewrite <- app_assoc in Da'', Dr''. simpl in Da'', Dr''.
  exists added, k, sp, rest, k2, sp2, a''. auto 8.
Qed.
Print Assumptions C04_again.

(** A checkpoint used three times, with an inner checkpoint used in between; [C04_again] applies to
    the first two uses and again to the second and third. *)
Example C04_example :
  let pre := [OToken 1 1] : list (op nat) in
  let mid := [OToken 2 1; OCheckpoint; OToken 3 1; OCloseAt 1 4] : list (op nat) in
  let mid2 := [OCheckpoint; OToken 5 2; OOpen 6; OToken 7 1; OClose; OCloseAt 2 8] : list (op nat) in
  exists a0 rs0 a rs a2 rs2, describes flavor_default pre a0 rs0 /\
    describes flavor_default (pre ++ OCheckpoint :: mid) a rs /\
    nth_error rs (length pre) = Some RCheckpoint /\ since (obtained rs0) mid /\ since (obtained rs) mid2 /\
    level (a_open a) = level (a_open a0) /\ full flavor_default a = false /\
    describes flavor_default (pre ++ OCheckpoint :: mid ++ OCloseAt (obtained rs0) 9 :: mid2) a2 rs2 /\
    level (a_open a2) = level (a_open a0) /\ full flavor_default a2 = false /\
    map r_data (a_cur a2) = [1; 9; 8].
Proof.
  do 6 eexists.
  do 2 (split; [vm_compute; reflexivity|]).
  split; [reflexivity|].
  split. { intros o k Hin Hk. simpl in Hin. vm_compute. repeat (destruct Hin as [<-|Hin]; [simpl in Hk; try tauto; subst; repeat constructor|]). tauto. }
  split. { intros o k Hin Hk. simpl in Hin. vm_compute. repeat (destruct Hin as [<-|Hin]; [simpl in Hk; try tauto; subst; repeat constructor|]). tauto. }
  split; [reflexivity|]. split; [vm_compute; reflexivity|]. split; [vm_compute; reflexivity|].
  split; [reflexivity|]. split; vm_compute; reflexivity.
Qed.
