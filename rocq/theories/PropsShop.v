(** C53: builders used with their own checkpoints do not notice each other. *)
From Coq Require Import Lia.
From Verif Require Import Base Pointer Index Tree Builder Hist Spec SpecMarks Rep Refine AllHist StepFacts Sim Mix SpecMix Demo.

Section Shop.
Context {T : Type}.
Variable F : flavor.
Notation memo := set_b_checkpoint.

(** [f] lists where the cells of the builder alone are in the common heap. *)
Record rel (f : list nat) (h : heap) (b : builder T) (env : list nat) (w : world T) : Prop := {
  rel_len : length f = length (w_heap w);
  rel_nodup : NoDup f;
  rel_cells : forall k a, nth_error f k = Some a -> nth_error h a = nth_error (w_heap w) k;
  rel_builder : exists m, b = memo m (w_builder w) /\
    match b_checkpoint (w_builder w) with None => m = None | Some k => exists a, nth_error f k = Some a /\ m = Some a end;
  rel_env : Forall2 (fun a k => nth_error f k = Some a) env (w_env w);
}.

Lemma memo_self (b : builder T) : memo (b_checkpoint b) b = b. Proof. destruct b; auto. Qed.
Lemma memo_fix (b' : builder T) m : b' = memo m b' -> b_checkpoint b' = m. Proof. intros ->. auto. Qed.
Lemma nth_some_lt {A} (l : list A) k a : nth_error l k = Some a -> k < length l.
Proof. intros H. apply nth_error_Some. congruence. Qed.

Definition moves (f : list nat) (h : heap) (w1 : world T) (w' : world T) : Prop :=
  exists g, rel (f ++ g) (w_heap w1) (w_builder w1) (w_env w1) w' /\
    (forall a, ~ In a f -> a < length h -> nth_error (w_heap w1) a = nth_error h a) /\
    (forall a, In a g -> length h <= a < length (w_heap w1)) /\ length h <= length (w_heap w1).

Lemma rel_bound f h b env w : rel f h b env w -> forall a, In a f -> a < length h.
Proof.
  intros R a Ha. apply In_nth_error in Ha as (k & Hk). pose proof (rel_cells _ _ _ _ _ R _ _ Hk) as E.
  apply nth_some_lt in Hk. rewrite (rel_len _ _ _ _ _ R) in Hk. apply nth_error_Some. rewrite E. apply nth_error_Some. auto.
Qed.

(** Calls that leave the heap and the memo alone. *)
Lemma plain_move {R} (call : builder T -> builder T * R) f h b env w :
  (forall m b, call (memo m b) = (memo m (fst (call b)), snd (call b))) -> rel f h b env w ->
  snd (call b) = snd (call (w_builder w)) /\
  moves f h (World h (fst (call b)) env) (World (w_heap w) (fst (call (w_builder w))) (w_env w)).
Proof.
  intros Hc R0. destruct R0 as [R1 R2 R3 (m & -> & R4) R5]. rewrite Hc. split; auto.
  exists []. rewrite app_nil_r. cbn [w_heap w_builder w_env fst snd]. split; [|split; [auto|split; [intros ? []|auto]]].
  constructor; auto. cbn [w_builder]. exists m. split; auto.
  assert (E : b_checkpoint (fst (call (w_builder w))) = b_checkpoint (w_builder w)).
  { eapply memo_fix. specialize (Hc (b_checkpoint (w_builder w)) (w_builder w)). rewrite memo_self in Hc. exact (f_equal fst Hc). }
  rewrite E. auto.
Qed.

Lemma cursor_memo i m (b : builder T) : (set_cursor i (memo m b), tt) = (memo m (fst (set_cursor i b, tt)), snd (set_cursor i b, tt)).
Proof. reflexivity. Qed.
Lemma empty_memo d m (b : builder T) : token_empty F d (memo m b) = (memo m (fst (token_empty F d b)), snd (token_empty F d b)).
Proof. apply token_memo. Qed.

Lemma nth_upd_other {A} (l : list A) i j g : i <> j -> nth_error (upd l i g) j = nth_error l j.
Proof. intros H. rewrite nth_upd. destruct (Nat.eqb_spec i j); congruence. Qed.

Lemma step_moves f h b env w o : rel f h b env w ->
  snd (step F (World h b env) o) = snd (step F w o) /\ moves f h (fst (step F (World h b env) o)) (fst (step F w o)).
Proof.
  intros R.
  assert (CA : forall k d osp, let call w := match nth_error (w_env w) k with
      | None => (w, RNoHandle)
      | Some a => let '(h, b, r) := close_at_gen F a d osp (w_heap w) (w_builder w) in (World h b (w_env w), out_node r)
      end in
      snd (call (World h b env)) = snd (call w) /\ moves f h (fst (call (World h b env))) (fst (call w))).
  { intros k d osp. cbv zeta. cbn [w_env w_heap w_builder]. pose proof (rel_env _ _ _ _ _ R) as RE.
    assert (Hk : match nth_error env k, nth_error (w_env w) k with
      | None, None => True | Some a, Some j => nth_error f j = Some a | _, _ => False end).
    { clear -RE. revert k RE. generalize (w_env w). intros l k RE. revert k. induction RE as [|x y xs ys H1 H2 IH]; intros [|k]; simpl; auto. apply IH. }
    destruct (nth_error env k) as [a|], (nth_error (w_env w) k) as [j|]; try contradiction.
    2: { split; auto. exists []. rewrite app_nil_r. split; [exact R|]. split; auto. split; [intros ? []|auto]. }
    pose proof (rel_bound _ _ _ _ _ R) as HB.
    destruct R as [R1 R2 R3 (m & -> & R4) R5]. pose proof (R3 _ _ Hk) as Ec.
    destruct (nth_error (w_heap w) j) as [c|] eqn:Ej. 2: { apply nth_error_None in Ej. apply nth_some_lt in Hk. lia. }
    destruct (close_at_memo F d osp j a c (w_heap w) h m (w_builder w) Ej Ec) as (h1 & h1' & b1 & r & c1 & E1 & E2 & W1 & W2).
    pose proof (close_at_memo F d osp j j c (w_heap w) (w_heap w) (b_checkpoint (w_builder w)) (w_builder w) Ej Ej) as (x1 & x1' & y1 & z & u & E3 & E4 & _).
    rewrite memo_self, E1 in E4. rewrite E1 in E3. injection E3 as <- <- <-.
    assert (Ek : b_checkpoint b1 = b_checkpoint (w_builder w)) by (eapply memo_fix; congruence).
    rewrite E1, E2. split; auto. exists []. rewrite app_nil_r. cbn [fst w_heap w_builder w_env].
    assert (L : length h1' = length h /\ length h1 = length (w_heap w)).
    { destruct c1; simpl in W1, W2; subst; rewrite ?length_upd; auto. } destruct L as [L1 L2].
    split; [|split; [|split; [intros ? []|lia]]].
    - constructor; cbn [w_heap w_builder w_env]; auto; [congruence| |].
      + intros k' a' Hk'. specialize (R3 _ _ Hk').
        destruct c1 as [c1|]; simpl in W1, W2; subst h1 h1'; auto. rewrite !nth_upd.
        destruct (Nat.eqb_spec a a') as [<-|Na], (Nat.eqb_spec j k') as [<-|Nj]; auto.
        * rewrite R3. auto.
        * exfalso. apply Nj. eapply (proj1 (NoDup_nth_error f) R2); [eapply nth_some_lt; eauto|congruence].
        * congruence.
      + exists m. rewrite Ek. split; auto.
    - intros a' Ha' _. destruct c1 as [c1|]; simpl in W2; subst h1'; auto. apply nth_upd_other. intros <-. apply Ha'. eapply nth_error_In; eauto. }
  destruct o; cbn [step w_heap w_builder w_env].
  - destruct (plain_move (open F d) f h b env w (open_memo F d) R) as [E M]. destruct (open F d b), (open F d (w_builder w)). cbn [fst snd] in *. subst. auto.
  - destruct (plain_move (open_with F d sp) f h b env w (open_with_memo F d sp) R) as [E M]. destruct (open_with F d sp b), (open_with F d sp (w_builder w)). cbn [fst snd] in *. subst. auto.
  - destruct (plain_move close f h b env w close_memo R) as [E M]. destruct (close b), (close (w_builder w)). cbn [fst snd] in *. subst. auto.
  - destruct (plain_move (token F d len) f h b env w (token_memo F d len) R) as [E M]. destruct (token F d len b), (token F d len (w_builder w)). cbn [fst snd] in *. subst. auto.
  - destruct (plain_move (token_empty F d) f h b env w (empty_memo d) R) as [E M]. destruct (token_empty F d b), (token_empty F d (w_builder w)). cbn [fst snd] in *. subst. auto.
  - destruct (plain_move (token_with F d sp) f h b env w (token_with_memo F d sp) R) as [E M]. destruct (token_with F d sp b), (token_with F d sp (w_builder w)). cbn [fst snd] in *. subst. auto.
  - (* checkpoint *)
    pose proof (rel_bound _ _ _ _ _ R) as HB.
    destruct R as [R1 R2 R3 (m & -> & R4) R5]. unfold checkpoint. cbn [b_tree b_parent b_checkpoint set_b_checkpoint].
    assert (Same : moves f h (World h (memo m (w_builder w)) env) (World (w_heap w) (w_builder w) (w_env w))).
    { exists []. rewrite app_nil_r. cbn [w_heap w_builder w_env]. split; [|split; [auto|split; [intros ? []|auto]]]. constructor; auto. exists m. auto. }
    destruct (pointer_new F (tree_len (b_tree (w_builder w)))) as [node|]; [|split; auto].
    set (c := Cell node (b_parent (w_builder w))).
    assert (Fresh : moves f h (World (h ++ [c]) (memo (Some (length h)) (memo m (w_builder w))) (env ++ [length h]))
        (World (w_heap w ++ [c]) (memo (Some (length (w_heap w))) (w_builder w)) (w_env w ++ [length (w_heap w)]))).
    { exists [length h]. cbn [w_heap w_builder w_env]. rewrite app_length. simpl length.
      assert (Hlast : nth_error (f ++ [length h]) (length (w_heap w)) = Some (length h)).
      { rewrite <- R1, nth_error_app2, Nat.sub_diag by lia. auto. }
      split; [|split; [|split; [|lia]]].
      - constructor; cbn [w_heap w_builder w_env].
        + rewrite !app_length. simpl. lia.
        + apply FinFun.Injective_map_NoDup with (f := fun x : nat => x) in R2; [|intros x y; auto]. rewrite map_id in R2.
          clear -R2 HB. induction f as [|x f IH]; simpl; [constructor; auto; constructor|]. inversion R2; subst. constructor.
          * rewrite in_app_iff. intros [G|[G|[]]]; auto. specialize (HB x (or_introl eq_refl)). lia.
          * apply IH; auto. intros a Ha. apply HB. right. auto.
        + intros k a Hk. destruct (Nat.lt_ge_cases k (length f)) as [Lk|Lk].
          * rewrite nth_error_app1 in Hk by auto. rewrite !nth_error_app1; auto; [lia|]. apply HB. eapply nth_error_In; eauto.
          * assert (k = length f). { apply nth_some_lt in Hk. rewrite app_length in Hk. simpl in Hk. lia. } subst k.
            rewrite R1, Hlast in Hk. injection Hk as <-. rewrite R1, !nth_error_app2, !Nat.sub_diag by lia. auto.
        + exists (Some (length h)). cbn [b_checkpoint set_b_checkpoint]. split; auto. exists (length h). split; auto.
        + apply Forall2_app; [|constructor; auto]. clear -R5. induction R5 as [|a k xs ys Hk _ IH]; constructor; auto. rewrite nth_error_app1; auto. eapply nth_some_lt; eauto.
      - intros a _ La. rewrite nth_error_app1; auto.
      - intros a [<-|[]]. lia. }
    destruct (b_checkpoint (w_builder w)) as [k|] eqn:Ek.
    2: { subst m. split; auto. }
    destruct R4 as (a & Hk & ->). rewrite (R3 _ _ Hk).
    destruct (nth_error (w_heap w) k) as [c'|] eqn:Ec; [|split; auto].
    destruct (Nat.eqb (c_node c') node && opt_nat_eqb (c_parent c') (b_parent (w_builder w))); [|split; auto].
    split; auto. exists []. rewrite app_nil_r. cbn [fst w_heap w_builder w_env]. split; [|split; [auto|split; [intros ? []|auto]]].
    constructor; auto; cbn [w_heap w_builder w_env].
    + exists (Some a). rewrite Ek. split; auto. exists a. auto.
    + apply Forall2_app; auto.
  - apply (CA k d None).
  - apply (CA k d (Some sp)).
  - destruct (plain_move (fun b => (set_cursor i b, tt)) f h b env w (cursor_memo i) R) as [E M]. cbn [fst snd] in *. auto.
Qed.

(** All builders at once: each has its own part of the heap. *)
Definition shop_rel (s : shop T) (ws : list (world T)) (fs : list (list nat)) : Prop :=
  length (sh_builders s) = length ws /\ length fs = length ws /\
  (forall i b env w f, nth_error (sh_builders s) i = Some (b, env) -> nth_error ws i = Some w -> nth_error fs i = Some f -> rel f (sh_heap s) b env w) /\
  (forall i j f g a, i <> j -> nth_error fs i = Some f -> nth_error fs j = Some g -> In a f -> In a g -> False).

Lemma nth_both {A B} (l : list A) (l' : list B) i x : length l = length l' -> nth_error l i = Some x -> exists y, nth_error l' i = Some y.
Proof. intros E H. apply nth_some_lt in H. destruct (nth_error l' i) eqn:E'; eauto. apply nth_error_None in E'. lia. Qed.

Lemma shop_call s ws fs i o : shop_rel s ws fs -> i < length ws -> exists w fs', nth_error ws i = Some w /\
  snd (shop_step F s (SCall i o)) = snd (step F w o) /\
  shop_rel (fst (shop_step F s (SCall i o))) (upd ws i (fun w => fst (step F w o))) fs'.
Proof.
  intros (H1 & H2 & H3 & H4) Hi. destruct (nth_error ws i) as [w|] eqn:Ew; [|apply nth_error_None in Ew; lia].
  destruct (nth_both ws (sh_builders s) i w (eq_sym H1) Ew) as ([b env] & Eb). destruct (nth_both ws fs i w (eq_sym H2) Ew) as (f & Ef).
  pose proof (H3 _ _ _ _ _ Eb Ew Ef) as R. destruct (step_moves f (sh_heap s) b env w o R) as [Eo (g & R' & M1 & M2 & M3)].
  exists w, (upd fs i (fun _ => f ++ g)). split; auto. unfold shop_step. rewrite Eb.
  destruct (step F (World (sh_heap s) b env) o) as [w1 r1] eqn:E1. destruct (step F w o) as [w2 r2] eqn:E2. cbn [fst snd] in *. split; auto.
  split; [|split; [|split]]; cbn [sh_heap sh_builders]; rewrite ?length_upd; auto.
  - intros j b' env' w' f' Gb Gw Gf. rewrite nth_upd in Gb. rewrite nth_upd in Gw. rewrite nth_upd in Gf. destruct (Nat.eqb_spec i j) as [<-|Nj].
    + rewrite Eb in Gb. rewrite Ew in Gw. rewrite Ef in Gf. cbn in Gb, Gw, Gf. injection Gb as <- <-. injection Gw as <-. injection Gf as <-.
      rewrite E2. auto.
    + pose proof (H3 _ _ _ _ _ Gb Gw Gf) as [A1 A2 A3 A4 A5]. constructor; auto.
      intros k a Hk. rewrite <- (A3 _ _ Hk). apply M1.
      * intros Hin. eapply (H4 i j f f' a); eauto. eapply nth_error_In; eauto.
      * eapply rel_bound with (f := f') (w := w') (b := b') (env := env'); [constructor; auto|eapply nth_error_In; eauto].
  - assert (New : forall j f' a, i <> j -> nth_error fs j = Some f' -> In a f' -> In a g -> False).
    { intros j f' a Nj Gf Ha Hg. destruct (nth_both fs ws j f' H2 Gf) as (w' & Gw). destruct (nth_both fs (sh_builders s) j f' (eq_trans H2 (eq_sym H1)) Gf) as ([b' env'] & Gb).
      pose proof (rel_bound _ _ _ _ _ (H3 _ _ _ _ _ Gb Gw Gf) a Ha). apply M2 in Hg. lia. }
    intros j k f1 f2 a Njk G1 G2 I1 I2. rewrite nth_upd in G1. rewrite nth_upd in G2.
    destruct (Nat.eqb_spec i j) as [<-|Nj], (Nat.eqb_spec i k) as [<-|Nk]; try congruence.
    + rewrite Ef in G1. cbn in G1. injection G1 as <-. apply in_app_iff in I1 as [I1|I1]; [eapply (H4 i k f f2 a); eauto|eapply New; eauto].
    + rewrite Ef in G2. cbn in G2. injection G2 as <-. apply in_app_iff in I2 as [I2|I2]; [eapply (H4 i j f f1 a); eauto|eapply New; eauto].
    + eapply (H4 j k f1 f2 a); eauto.
Qed.

Lemma shop_new_builder s ws fs : shop_rel s ws fs -> shop_rel (fst (shop_step F s SNew)) (ws ++ [world_new]) (fs ++ [[]]).
Proof.
  intros (H1 & H2 & H3 & H4). cbn [shop_step fst]. split; [|split; [|split]]; cbn [sh_heap sh_builders]; rewrite ?app_length; simpl; try lia.
  - intros i b env w f G1 G2 G3. destruct (Nat.lt_ge_cases i (length ws)) as [L|L].
    + rewrite nth_error_app1 in G1, G2, G3 by lia. eauto.
    + assert (i = length ws). { apply nth_some_lt in G2. rewrite app_length in G2. simpl in G2. lia. } subst i.
      rewrite nth_error_app2 in G1, G2, G3 by lia. rewrite H1 in G1. rewrite H2 in G3. rewrite Nat.sub_diag in *. simpl in *. injection G1 as <- <-. injection G2 as <-. injection G3 as <-.
      constructor; simpl; auto; [constructor|intros [|k]; discriminate|]. exists None. auto.
  - assert (G : forall i f a, nth_error (fs ++ [[]]) i = Some f -> In a f -> nth_error fs i = Some f).
    { intros i f a E I1. destruct (Nat.lt_ge_cases i (length fs)) as [L|L]; [rewrite nth_error_app1 in E; auto|].
      rewrite nth_error_app2 in E by lia. destruct (i - length fs) as [|[|k]]; simpl in E; try discriminate. injection E as <-. destruct I1. }
    intros i j f g a Nij E1 E2 I1 I2. eapply (H4 i j f g a); eauto.
Qed.

Lemma shop_sim ops : forall s ws fs, shop_rel s ws fs ->
  exists ws' fs', shop_rel (fst (shop_run F s ops)) ws' fs' /\ length ws' = length ws + news ops /\
    forall i w', nth_error ws' i = Some w' ->
      let w := match nth_error ws i with Some w => w | None => world_new end in
      w' = fst (run F w (calls_on (length ws) i ops)) /\
      outs_on (length ws) i ops (snd (shop_run F s ops)) = snd (run F w (calls_on (length ws) i ops)).
Proof.
  induction ops as [|o ops IH]; intros s ws fs R.
  - exists ws, fs. simpl. split; auto. split; [lia|]. intros i w' E. rewrite E. auto.
  - cbn [shop_run]. destruct o as [|j o].
    + pose proof (shop_new_builder s ws fs R) as R'. destruct (shop_step F s SNew) as [s1 r1] eqn:E1. cbn [fst] in R'.
      destruct (IH _ _ _ R') as (ws' & fs' & Q1 & Q2 & Q3). destruct (shop_run F s1 ops) as [s2 rs] eqn:E2. cbn [fst snd] in *.
      exists ws', fs'. split; auto. rewrite app_length in *. cbn [length] in *. replace (length ws + 1) with (S (length ws)) in * by lia.
      split; [simpl; lia|]. intros i w' E. specialize (Q3 i w' E). cbn [calls_on outs_on]. cbv zeta in *.
      assert (En : match nth_error (ws ++ [world_new]) i with Some w => w | None => world_new end = match nth_error ws i with Some w => w | None => world_new end).
      { destruct (Nat.lt_ge_cases i (length ws)); [rewrite nth_error_app1; auto|]. rewrite nth_error_app2 by lia.
        rewrite (proj2 (nth_error_None ws i)) by lia. destruct (i - length ws) as [|[|k]]; auto. }
      rewrite En in Q3. auto.
    + destruct (Nat.lt_ge_cases j (length ws)) as [Lj|Lj].
      * destruct (shop_call s ws fs j o R Lj) as (wj & fs1 & Ew & Eo & R'). destruct (shop_step F s (SCall j o)) as [s1 r1] eqn:E1. cbn [fst snd] in *.
        destruct (IH _ _ _ R') as (ws' & fs' & Q1 & Q2 & Q3). destruct (shop_run F s1 ops) as [s2 rs] eqn:E2. cbn [fst snd] in *.
        exists ws', fs'. split; auto. rewrite length_upd in *. split; auto. intros i w' E. specialize (Q3 i w' E). cbv zeta in *. cbn [calls_on outs_on].
        rewrite nth_upd in Q3. destruct (Nat.eqb_spec j i) as [<-|Nj]; cbn [andb]; auto.
        apply Nat.ltb_lt in Lj. rewrite Lj. rewrite Ew in *. cbn [option_map] in Q3. cbn [run].
        destruct (step F wj o) as [w1 r]. cbn [fst snd] in *. subst r1. destruct (run F w1 (calls_on (length ws) j ops)) as [w2 rs2]. cbn [fst snd] in *.
        destruct Q3 as [-> Q3]. split; auto. f_equal. auto.
      * assert (E1 : shop_step F s (SCall j o) = (s, RNoHandle)).
        { unfold shop_step. destruct R as (H1 & _). rewrite (proj2 (nth_error_None _ _)) by lia. auto. }
        rewrite E1. destruct (IH _ _ _ R) as (ws' & fs' & Q1 & Q2 & Q3). destruct (shop_run F s ops) as [s2 rs] eqn:E2. cbn [fst snd] in *.
        exists ws', fs'. split; auto. split; auto. intros i w' E. specialize (Q3 i w' E). cbv zeta in *. cbn [calls_on outs_on].
        destruct (Nat.eqb_spec j i) as [<-|Nj]; cbn [andb]; auto. destruct (Nat.ltb_spec j (length ws)); auto. lia.
Qed.
End Shop.

(** Builders that use their own checkpoints, in any interleaving: each is as if it were alone, with the
    same answers, the same tree, the same open node and cursor. *)
Theorem C53_independent : forall T F (ops : list (shop_op T)) i, i < news ops ->
  exists b marks, nth_error (sh_builders (fst (shop_run F shop_new ops))) i = Some (b, marks) /\
    let alone := w_builder (run_world F (calls_on 0 i ops)) in
    b_tree b = b_tree alone /\ b_parent b = b_parent alone /\ b_sibling b = b_sibling alone /\ b_cursor b = b_cursor alone /\
    build b = build alone /\ length marks = length (w_env (run_world F (calls_on 0 i ops))) /\
    outs_on 0 i ops (snd (shop_run F shop_new ops)) = run_outs F (calls_on 0 i ops).
Proof.
  intros T F ops i Hi.
  assert (R : shop_rel (@shop_new T) [] []). { split; [|split; [|split]]; auto; intros [|k]; discriminate. }
  destruct (shop_sim F ops _ _ _ R) as (ws & fs & (H1 & H2 & H3 & H4) & L & G). simpl in L.
  destruct (nth_error ws i) as [w|] eqn:Ew; [|apply nth_error_None in Ew; lia].
  destruct (nth_both ws (sh_builders (fst (shop_run F shop_new ops))) i w (eq_sym H1) Ew) as ([b env] & Eb). destruct (nth_both ws fs i w (eq_sym H2) Ew) as (f & Ef).
  destruct (H3 _ _ _ _ _ Eb Ew Ef) as [A1 A2 A3 (m & -> & A4) A5]. destruct (G i w Ew) as [E1 E2]. exists (set_b_checkpoint m (w_builder w)), env. split; auto.
  assert (En : match nth_error (@nil (world T)) i with Some w => w | None => world_new end = world_new) by (destruct i; auto). rewrite En in *. cbn [length] in *.
  unfold run_world, run_outs. cbv zeta. rewrite <- E1. repeat split; auto. clear -A5. induction A5; simpl; auto.
Qed.
Print Assumptions C53_independent.

(** Two builders, each wrapping what it built at its own checkpoint, in turns. *)
Example C53_independent_inhabited :
  let ops := [SNew; SCall 0 OCheckpoint; SNew; SCall 1 (OToken 1 2%N); SCall 1 OCheckpoint; SCall 0 (OToken 5 3%N); SCall 1 (OToken 2 1%N);
              SCall 0 (OCloseAt 0 6); SCall 1 (OCloseAt 0 7)] in
  news ops = 2 /\ calls_on 0 0 ops = [OCheckpoint; OToken 5 3%N; OCloseAt 0 6] /\
  calls_on 0 1 ops = [OToken 1 2%N; OCheckpoint; OToken 2 1%N; OCloseAt 0 7] /\
  snd (shop_run flavor_default shop_new ops) = [RUnit; RCheckpoint; RUnit; RNode 0; RCheckpoint; RNode 0; RNode 1; RNode 1; RNode 2].
Proof. vm_compute. auto. Qed.
