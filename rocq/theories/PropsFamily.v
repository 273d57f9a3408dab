(** C36 for any number of clones: a builder is independent of all others as long as no checkpoint is used on both. *)
From Coq Require Import Lia.
From Verif Require Import Base Pointer Index Tree Builder Hist Clone Mix Family Spec SpecMarks SpecFamily Rep Refine AllHist StepFacts Sim PropsSafe PropsWith.

Section Family.
Context {T : Type}.
Variable F : flavor.
Implicit Types (b : builder T) (h : heap) (w : world T) (o : op T) (m : option nat) (U : list nat).
Notation memo := set_b_checkpoint.

(** A world used alone, [w], and the same builder among others, [w'].  [U]: cells that the others use. *)
Record twins U w w' : Prop := {
  ts_b : exists m, w_builder w' = memo m (w_builder w);
  ts_len : length (w_env w) = length (w_env w');
  ts_here : forall k a, nth_error (w_env w) k = Some a -> a < length (w_heap w);
  ts_there : forall k a, nth_error (w_env w') k = Some a -> a < length (w_heap w');
  ts_cells : forall k a a', nth_error (w_env w) k = Some a -> nth_error (w_env w') k = Some a' -> ~ In a' U ->
     nth_error (w_heap w) a = nth_error (w_heap w') a';
  ts_alias : forall k1 k2 a1 a2 a1' a2', nth_error (w_env w) k1 = Some a1 -> nth_error (w_env w) k2 = Some a2 ->
     nth_error (w_env w') k1 = Some a1' -> nth_error (w_env w') k2 = Some a2' -> ~ In a1' U -> ~ In a2' U -> (a1 = a2 <-> a1' = a2');
  ts_memo : match b_checkpoint (w_builder w), b_checkpoint (w_builder w') with
     | None, None => True
     | Some x, Some x' => x < length (w_heap w) /\ x' < length (w_heap w') /\
         (~ In x' U -> nth_error (w_heap w) x = nth_error (w_heap w') x') /\
         (forall k a a', nth_error (w_env w) k = Some a -> nth_error (w_env w') k = Some a' -> ~ In a' U -> (a = x <-> a' = x'))
     | _, _ => False
     end;
}.

Lemma snoc_cases {A} (l : list A) x k y : nth_error (l ++ [x]) k = Some y -> (k < length l /\ nth_error l k = Some y) \/ (k = length l /\ y = x).
Proof.
  intros E. destruct (Nat.lt_ge_cases k (length l)) as [H|H].
  - left. rewrite nth_error_app1 in E by auto. auto.
  - right. assert (k = length l) as -> by (apply nth_lt in E; rewrite app_length in E; simpl in E; lia).
    rewrite nth_error_app2, Nat.sub_diag in E by lia. simpl in E. split; congruence.
Qed.

(** A checkpoint is handed out: [x] when alone, [x'] among others. *)
Lemma twins_new U h b env h' m env' e e' x x' :
  twins U (World h b env) (World h' (memo m b) env') ->
  x < length (h ++ e) -> x' < length (h' ++ e') ->
  (~ In x' U -> nth_error (h ++ e) x = nth_error (h' ++ e') x') ->
  (forall k a a', nth_error env k = Some a -> nth_error env' k = Some a' -> ~ In a' U -> (a = x <-> a' = x')) ->
  twins U (World (h ++ e) (memo (Some x) b) (env ++ [x])) (World (h' ++ e') (memo (Some x') (memo m b)) (env' ++ [x'])).
Proof.
  intros [_ S2 S3 S4 S5 S6 _] Hx Hx' Hc Ha. simpl in *.
  assert (C : forall k a a', nth_error (env ++ [x]) k = Some a -> nth_error (env' ++ [x']) k = Some a' ->
    (nth_error env k = Some a /\ nth_error env' k = Some a') \/ (a = x /\ a' = x')).
  { intros k a a' E E'. apply snoc_cases in E as [[L E]|[L ->]]; apply snoc_cases in E' as [[L' E']|[L' ->]]; auto; lia. }
  constructor; simpl.
  - eexists. reflexivity.
  - rewrite !app_length. simpl. lia.
  - intros k a E. apply snoc_cases in E as [[L E]|[L ->]]; auto. apply S3 in E. rewrite app_length. lia.
  - intros k a E. apply snoc_cases in E as [[L E]|[L ->]]; auto. apply S4 in E. rewrite app_length. lia.
  - intros k a a' E E' HU. destruct (C k a a' E E') as [[G G']|[-> ->]]; auto.
    rewrite !nth_error_app1; eauto.
  - intros k1 k2 a1 a2 a1' a2' E1 E2 E1' E2' U1 U2.
    destruct (C _ _ _ E1 E1') as [[G1 G1']|[-> ->]], (C _ _ _ E2 E2') as [[G2 G2']|[-> ->]]; eauto; try tauto.
    assert (a2 = x <-> a2' = x') by eauto. split; intros; symmetry; apply H; auto.
  - split; auto. split; auto. split; auto.
    intros k a a' E E' HU. destruct (C k a a' E E') as [[G G']|[-> ->]]; [|tauto]. apply (Ha k a a' G G'); auto.
Qed.

(** One call, taken in both worlds. *)
Lemma twins_step U w w' o : (forall a, given (w_env w') o = Some a -> ~ In a U) -> twins U w w' ->
  snd (step F w' o) = snd (step F w o) /\ twins U (fst (step F w o)) (fst (step F w' o)).
Proof.
  intros HU HT. destruct (local o) eqn:Hl.
  - destruct (local_shape F w o Hl) as (L1 & L2 & L3). destruct (local_shape F w' o Hl) as (L1' & L2' & L3').
    destruct HT as [[m S1] S2 S3 S4 S5 S6 S7]. destruct w as [h b env], w' as [h' b' env']. simpl in *. subst b'.
    destruct (local_step_memo F o h h' m b env env' Hl) as (b1 & r & E1 & E2). rewrite E1, E2 in *. simpl in *.
    split; auto. constructor; simpl; eauto. rewrite L3. exact S7.
  - assert (CA : forall k d osp, (forall a, nth_error (w_env w') k = Some a -> ~ In a U) ->
      let st (w : world T) := match nth_error (w_env w) k with None => (w, RNoHandle) | Some a =>
        let '(h, b, r) := close_at_gen F a d osp (w_heap w) (w_builder w) in (World h b (w_env w), out_node r) end in
      snd (st w') = snd (st w) /\ twins U (fst (st w)) (fst (st w'))).
    { intros k d osp HU' st. unfold st. clear st. pose proof HT as [[m S1] S2 S3 S4 S5 S6 S7].
      destruct (nth_error (w_env w) k) as [a|] eqn:Ek.
      2:{ assert (nth_error (w_env w') k = None) as -> by (apply nth_error_None; rewrite <- S2; apply nth_error_None; auto). auto. }
      destruct (nth_error (w_env w') k) as [a'|] eqn:Ek'.
      2:{ apply nth_error_None in Ek'. apply nth_lt in Ek. lia. }
      specialize (HU' a' eq_refl).
      pose proof (S5 k a a' Ek Ek' HU') as Ec. destruct (nth_in (w_heap w) a (S3 k a Ek)) as [c Hc]. rewrite Hc in Ec. symmetry in Ec.
      destruct (close_at_memo F d osp a a' c (w_heap w) (w_heap w') m (w_builder w) Hc Ec) as
        (h1 & h1' & b1 & r & c1 & E1 & E2 & R1 & R2).
      pose proof (close_at_shape F d osp a (w_heap w) (w_builder w)) as SH.
      rewrite S1, E1, E2 in *. destruct SH as (SH & _ & _). simpl in *. split; auto.
      assert (LW : length h1 = length (w_heap w)) by (destruct c1; simpl in R1; subst h1; rewrite ?length_upd; auto).
      assert (LW' : length h1' = length (w_heap w')) by (destruct c1; simpl in R2; subst h1'; rewrite ?length_upd; auto).
      assert (CELL : forall x x', (a = x <-> a' = x') -> nth_error (w_heap w) x = nth_error (w_heap w') x' ->
        nth_error h1 x = nth_error h1' x').
      { intros x x' Hal Hx. destruct c1 as [c1|]; simpl in R1, R2; subst h1 h1'; auto.
        destruct (Nat.eq_dec a x) as [->|Hne].
        - assert (a' = x') as -> by (apply Hal; auto). rewrite !nth_upd, !Nat.eqb_refl, Hc, Ec. auto.
        - rewrite !nth_upd_other; auto. intros X. apply Hne, Hal. auto. }
      constructor; simpl; [eauto|auto| | | |exact S6|].
      - intros k2 x E. rewrite LW. eauto.
      - intros k2 x E. rewrite LW'. eauto.
      - intros k2 x x' Ex Ex' Ux. apply CELL; eauto.
      - rewrite SH. destruct (b_checkpoint (w_builder w)) as [x|], m as [x'|]; auto.
        destruct S7 as (M1 & M2 & M3 & M4). rewrite LW, LW'. split; auto. split; auto. split; [|exact M4].
        intros Ux. apply CELL; eauto. }
    destruct o; simpl in Hl; try discriminate.
    + clear CA HU. pose proof HT as [[m S1] S2 S3 S4 S5 S6 S7]. destruct w as [h b env], w' as [h' b' env']. simpl in *. subst b'. simpl in *.
      unfold checkpoint. simpl. destruct (pointer_new F _) as [n|] eqn:En; [|simpl; auto].
      set (c0 := Cell n (b_parent b)).
      assert (HIT : forall c, Nat.eqb (c_node c) n && opt_nat_eqb (c_parent c) (b_parent b) = true -> c = c0).
      { intros [i p] E. apply andb_true_iff in E as [E1 E2]. simpl in *. apply Nat.eqb_eq in E1. subst i. unfold c0. f_equal.
        destruct p, (b_parent b); simpl in E2; try discriminate; auto. apply Nat.eqb_eq in E2. congruence. }
      assert (MISS : Nat.eqb (c_node c0) n && opt_nat_eqb (c_parent c0) (b_parent b) = true).
      { simpl. rewrite Nat.eqb_refl. destruct (b_parent b); simpl; auto. apply Nat.eqb_refl. }
      assert (MM : forall x, Some x = b_checkpoint b -> memo (Some x) b = b) by (intros x ->; destruct b; reflexivity).
      assert (LAST : forall (l : heap), nth_error (l ++ [c0]) (length l) = Some c0) by (intros; rewrite nth_error_app2, Nat.sub_diag by lia; auto).
      assert (FRESH : forall k a a', nth_error env k = Some a -> nth_error env' k = Some a' -> a = length h <-> a' = length h').
      { intros k a a' E E'. apply S3 in E. apply S4 in E'. split; lia. }
      assert (FF : twins U (World (h ++ [c0]) (memo (Some (length h)) b) (env ++ [length h]))
                           (World (h' ++ [c0]) (memo (Some (length h')) (memo m b)) (env' ++ [length h']))).
      { apply twins_new; auto; rewrite ?app_length; simpl; try lia. intros _. rewrite !LAST. auto. eauto. }
      destruct (b_checkpoint b) as [x|] eqn:Ex, m as [x'|]; try tauto.
      destruct S7 as (M1 & M2 & M3 & M4).
      destruct (nth_in h x M1) as [c Hc]. destruct (nth_in h' x' M2) as [c' Hc']. rewrite Hc, Hc' in *.
      destruct (Nat.eqb (c_node c) n && _) eqn:Eh; destruct (Nat.eqb (c_node c') n && _) eqn:Eh'; cbn [fst snd]; split; auto.
      * pose proof (twins_new U h b env h' (Some x') env' [] [] x x' HT) as G. rewrite !app_nil_r in G. simpl in G.
        rewrite (MM x eq_refl) in G. apply G; auto. rewrite Hc, Hc'. auto.
      * assert (In x' U) as HU.
        { destruct (in_dec Nat.eq_dec x' U) as [|N]; auto. apply M3 in N. injection N as ->. congruence. }
        pose proof (twins_new U h b env h' (Some x') env' [] [c0] x (length h') HT) as G. rewrite !app_nil_r in G.
        rewrite (MM x eq_refl) in G. apply G; auto.
        -- rewrite app_length. simpl. lia.
        -- intros _. rewrite LAST, Hc. f_equal. auto.
        -- intros k a a' E E' Ua. pose proof (M4 k a a' E E' Ua) as Y. pose proof (S4 k a' E'). split; [|lia].
           intros ->. assert (a' = x') by (apply Y; auto). subst. tauto.
      * assert (In x' U) as HU.
        { destruct (in_dec Nat.eq_dec x' U) as [|N]; auto. apply M3 in N. injection N as ->. congruence. }
        pose proof (twins_new U h b env h' (Some x') env' [c0] [] (length h) x' HT) as G. rewrite !app_nil_r in G.
        apply G; auto.
        -- rewrite app_length. simpl. lia.
        -- tauto.
        -- intros k a a' E E' Ua. pose proof (S3 k a E). split; [lia|]. intros ->. tauto.
    + apply (CA k d None). intros a Ha. apply HU. auto.
    + apply (CA k d (Some sp)). intros a Ha. apply HU. auto.
Qed.

(** A call on another builder. *)
Lemma other_step U w w' o : (forall a, given (w_env w) o = Some a -> In a U) ->
  (forall k a, nth_error (w_env w) k = Some a -> a < length (w_heap w)) ->
  length (w_heap w) <= length (w_heap (fst (step F w o))) /\
  (forall x, x < length (w_heap w) -> ~ In x U -> nth_error (w_heap (fst (step F w o))) x = nth_error (w_heap w) x).
Proof.
  intros HU HV. destruct (local o) eqn:Hl; [destruct (local_shape F w o Hl) as (-> & _); auto|].
  assert (CA : forall k d osp, (forall a, nth_error (w_env w) k = Some a -> In a U) ->
      let st := match nth_error (w_env w) k with None => (w, RNoHandle) | Some a =>
        let '(h, b, r) := close_at_gen F a d osp (w_heap w) (w_builder w) in (World h b (w_env w), out_node r) end in
      length (w_heap w) <= length (w_heap (fst st)) /\
      (forall x, x < length (w_heap w) -> ~ In x U -> nth_error (w_heap (fst st)) x = nth_error (w_heap w) x)).
  { intros k d osp HU' st. unfold st. destruct (nth_error (w_env w) k) as [a|]; [|auto].
    pose proof (close_at_shape F d osp a (w_heap w) (w_builder w)) as SH.
    destruct (close_at_gen F a d osp (w_heap w) (w_builder w)) as [[h1 b1] r]. simpl. destruct SH as (_ & _ & [->|(i & p & _ & _ & ->)]); auto.
    rewrite length_upd. split; auto. intros x Hx Ux. apply nth_upd_other. intros ->. apply Ux. auto. }
  destruct o; simpl in Hl; try discriminate.
  - destruct w as [h b env]. simpl in *. unfold checkpoint. destruct (pointer_new _ _); simpl; auto.
    assert (G : forall c, length h <= length (h ++ [c]) /\ (forall x, x < length h -> ~ In x U -> nth_error (h ++ [c]) x = nth_error h x)).
    { intros c. rewrite app_length. split; [lia|]. intros x Hx _. apply nth_error_app1. auto. }
    destruct (b_checkpoint b) as [x|]; simpl; auto. destruct (nth_error h x); simpl; auto. destruct (_ && _); simpl; auto.
  - apply (CA k d None). auto.
  - apply (CA k d (Some sp)). auto.
Qed.

Lemma twins_other U w w' h' : twins U w w' -> length (w_heap w') <= length h' ->
  (forall x, x < length (w_heap w') -> ~ In x U -> nth_error h' x = nth_error (w_heap w') x) ->
  twins U w (World h' (w_builder w') (w_env w')).
Proof.
  intros [S1 S2 S3 S4 S5 S6 S7] Hle Hs. constructor; simpl; eauto.
  - intros k a E. apply S4 in E. lia.
  - intros k a a' E E' HU. rewrite Hs; eauto.
  - destruct (b_checkpoint (w_builder w)), (b_checkpoint (w_builder w')); auto. destruct S7 as (M1 & M2 & M3 & M4).
    split; auto. split; [lia|]. split; [|exact M4]. intros HU. rewrite Hs; auto.
Qed.

Lemma twins_more U a w w' : twins U w w' -> twins (a ++ U) w w'.
Proof.
  assert (N : forall x, ~ In x (a ++ U) -> ~ In x U) by (intros x H G; apply H, in_app_iff; auto).
  intros [S1 S2 S3 S4 S5 S6 S7]. constructor; auto.
  - intros k x x' E E' HU. eapply S5; eauto.
  - intros k1 k2; intros. eapply (S6 k1 k2); eauto.
  - destruct (b_checkpoint (w_builder w)), (b_checkpoint (w_builder w')); auto. destruct S7 as (M1 & M2 & M3 & M4).
    split; auto. split; auto. split; [auto|]. intros k x x' E E' HU. eapply M4; eauto.
Qed.

(** All builders of a shop hold cells that exist. *)
Definition sound (s : shop T) : Prop := forall j b env, nth_error (sh_builders s) j = Some (b, env) ->
  (forall k a, nth_error env k = Some a -> a < length (sh_heap s)) /\ (forall a, b_checkpoint b = Some a -> a < length (sh_heap s)).

Lemma step_sound w o : (forall k a, nth_error (w_env w) k = Some a -> a < length (w_heap w)) -> (forall a, b_checkpoint (w_builder w) = Some a -> a < length (w_heap w)) ->
  length (w_heap w) <= length (w_heap (fst (step F w o))) /\
  (forall k a, nth_error (w_env (fst (step F w o))) k = Some a -> a < length (w_heap (fst (step F w o)))) /\
  (forall a, b_checkpoint (w_builder (fst (step F w o))) = Some a -> a < length (w_heap (fst (step F w o)))).
Proof.
  intros H1 H2. assert (TW : twins [] w w).
  { constructor; auto.
    - exists (b_checkpoint (w_builder w)). destruct (w_builder w); auto.
    - intros k a a' E E' _. congruence.
    - intros k1 k2; intros. assert (a1 = a1') by congruence. assert (a2 = a2') by congruence. subst. tauto.
    - destruct (b_checkpoint (w_builder w)) as [x|] eqn:E; auto. split; auto. split; auto. split; auto. intros; split; congruence. }
  destruct (twins_step [] w w o) as [_ G]; auto.
  destruct (other_step (match given (w_env w) o with Some a => [a] | None => [] end) w w o) as [L _]; auto.
  { intros a ->. left. auto. }
  split; auto. split; [exact (ts_here _ _ _ G)|]. intros a Ea. pose proof (ts_memo _ _ _ G) as M. rewrite Ea in M. tauto.
Qed.

Lemma fam_sound s (o : fam_op T) : sound s -> sound (fst (fam_step F s o)).
Proof.
  intros H. destruct o as [|i|i o]; simpl.
  - intros j b env E. apply snoc_cases in E as [[_ E]|[_ E]]; [apply (H j); auto|]. injection E as -> ->. simpl. split; [intros [|k]|]; discriminate.
  - destruct (nth_error (sh_builders s) i) as [[b0 env0]|] eqn:Ei; [|auto]. intros j b env E. simpl in *.
    apply snoc_cases in E as [[_ E]|[_ E]]; [apply (H j); auto|]. injection E as -> ->. destruct (H i b0 env0 Ei). auto.
  - destruct (nth_error (sh_builders s) i) as [[b0 env0]|] eqn:Ei; [|auto]. destruct (H i b0 env0 Ei) as [V1 V2].
    pose proof (step_sound (World (sh_heap s) b0 env0) o V1 V2) as (L & W1 & W2).
    destruct (step F (World (sh_heap s) b0 env0) o) as [w r]. simpl in *. intros j b env E. simpl in *. rewrite nth_upd in E.
    destruct (Nat.eqb_spec i j) as [->|].
    + rewrite Ei in E. simpl in E. injection E as <- <-. auto.
    + destruct (H j b env E) as [G1 G2]. split; intros; [apply G1 in H0|apply G2 in H0]; lia.
Qed.

(** The story of one builder.  [U]: the cells given to calls outside of it so far. *)
Definition keeps U (ds : list (deed T)) : Prop :=
  (forall d a, In d ds -> d_own d = true -> d_given d = Some a -> ~ In a U) /\
  (forall before e between d after c, ds = before ++ e :: between ++ d :: after ->
     d_own e = false -> d_own d = true -> d_given e = Some c -> d_given d <> Some c).

Lemma keeps_own U d ds : keeps U (d :: ds) -> keeps U ds.
Proof.
  intros [H1 H2]. split; [intros e a He; apply H1; right; auto|].
  intros before e between f after c E. apply (H2 (d :: before) e between f after c). rewrite E. auto.
Qed.
Lemma keeps_other U d ds : keeps U (d :: ds) -> d_own d = false ->
  keeps (match d_given d with Some a => [a] | None => [] end ++ U) ds.
Proof.
  intros H Hd. pose proof (keeps_own U d ds H) as [K1 K2]. split; [|exact K2].
  intros e a He Oe Ge Hin. apply in_app_iff in Hin as [Hin|Hin]; [|apply (K1 e a); auto].
  destruct (d_given d) as [x|] eqn:Gd; [|destruct Hin]. destruct Hin as [->|[]].
  apply in_split in He as (l1 & l2 & ->). apply (proj2 H [] d l1 e l2 a); auto.
Qed.

Lemma fam_story (ops : list (fam_op T)) : forall U s i w,
  let me := fst (deeds F s ops i) in
  let ds := snd (deeds F s ops i) in
  sound s ->
  (match nth_error (sh_builders s) me with
   | Some (b, env) => twins U w (World (sh_heap s) b env)
   | None => w = world_new
   end) ->
  keeps U ds ->
  let mine := filter d_own ds in
  forall b env, nth_error (sh_builders (fst (fam_run F s ops))) i = Some (b, env) ->
  map d_result mine = snd (run F w (map d_call mine)) /\
  exists U', twins U' (fst (run F w (map d_call mine))) (World (sh_heap (fst (fam_run F s ops))) b env).
Proof.
  induction ops as [|o ops IH]; intros U s i w me ds Hs Hm HK mine b env E.
  - simpl in *. unfold me in Hm. simpl in Hm. rewrite E in Hm. eauto.
  - pose proof (fam_sound s o Hs) as Hs'. unfold mine, ds, me in *. clear mine ds me. cbn [deeds fam_run] in *.
    assert (LEN : forall me, nth_error (sh_builders s) me = None <-> length (sh_builders s) <= me) by (intros; apply nth_error_None).
    destruct (fam_step F s o) as [s' r] eqn:Es. cbn [fst] in Hs'. pose proof (fun U => IH U s' i) as IH'. clear IH.
    destruct (deeds F s' ops i) as [me ds]. cbn [fst snd] in IH'.
    rewrite (surjective_pairing (fam_run F s' ops)) in *. cbn [fst] in *.
    destruct o as [|j|j o]; simpl in Es.
    + injection Es as <- <-. cbn [fst snd sh_builders sh_heap] in *. apply (IH' U); auto.
      destruct (Nat.eq_dec me (length (sh_builders s))) as [->|Hne].
      * rewrite (proj2 (LEN _)) in Hm by lia. subst w. rewrite nth_error_app2, Nat.sub_diag by lia. simpl.
        constructor; simpl; auto; try (intros [|k]; discriminate). exists None. auto.
      * destruct (nth_error (sh_builders s) me) as [[b0 e0]|] eqn:Em.
        -- rewrite nth_error_app1 by (eapply nth_lt; eauto). rewrite Em. auto.
        -- apply LEN in Em. rewrite (proj2 (nth_error_None _ me)); auto. rewrite app_length. simpl. lia.
    + destruct (nth_error (sh_builders s) j) as [[b0 env0]|] eqn:Ej; [|injection Es as <- <-; cbn [fst snd] in *; apply (IH' U); auto].
      injection Es as <- <-. cbn [fst snd sh_builders sh_heap] in *. apply (IH' U); auto.
      destruct (Nat.eqb_spec me (length (sh_builders s))) as [->|Hne].
      * rewrite Ej in Hm. rewrite nth_error_app2, Nat.sub_diag by lia. simpl. unfold builder_clone. destruct b0; auto.
      * destruct (nth_error (sh_builders s) me) as [[b1 e1]|] eqn:Em.
        -- rewrite nth_error_app1 by (eapply nth_lt; eauto). rewrite Em. auto.
        -- apply LEN in Em. rewrite (proj2 (nth_error_None _ me)); auto. rewrite app_length. simpl. lia.
    + destruct (nth_error (sh_builders s) j) as [[b0 env0]|] eqn:Ej; [|injection Es as <- <-; cbn [fst snd] in *; apply (IH' U); auto].
      destruct (step F (World (sh_heap s) b0 env0) o) as [w1 r1] eqn:E1. injection Es as <- <-. cbn [fst snd sh_builders sh_heap] in *.
      destruct (Hs j b0 env0 Ej) as [V1 V2].
      destruct (Nat.eqb_spec me j) as [->|Hne].
      * rewrite Ej in Hm. destruct (twins_step U w (World (sh_heap s) b0 env0) o) as [R T']; auto.
        { intros a Ha. eapply (proj1 HK); [left; reflexivity|auto|auto]. }
        rewrite E1 in R, T'. cbn [fst snd] in R, T'. subst r1.
        cbn [filter d_own]. cbn [map d_result d_call]. cbn [run].
        rewrite (surjective_pairing (step F w o)). rewrite (surjective_pairing (run F (fst (step F w o)) _)). cbn [fst snd].
        destruct (IH' U (fst (step F w o))) with (b := b) (env := env) as [I1 I2]; auto.
        { rewrite nth_upd, Nat.eqb_refl, Ej. simpl. destruct w1; auto. }
        { eapply keeps_own; eauto. }
        rewrite I1. auto.
      * pose proof (keeps_other _ _ _ HK eq_refl) as HK'. cbn [d_given] in HK'.
        set (V := match given env0 o with Some a => [a] | None => [] end) in *.
        cbn [filter d_own]. apply (IH' (V ++ U)); auto.
        rewrite nth_upd. destruct (Nat.eqb_spec j me) as [->|_]; [tauto|].
        destruct (nth_error (sh_builders s) me) as [[b1 e1]|] eqn:Em; auto.
        destruct (other_step (V ++ U) (World (sh_heap s) b0 env0) (World (sh_heap s) b0 env0) o) as [L C].
        { cbn [w_env]. intros a Ha. apply in_app_iff. left. unfold V. rewrite Ha. left. auto. }
        { exact V1. }
        rewrite E1 in L, C. apply (twins_other (V ++ U) w (World (sh_heap s) b1 e1) (w_heap w1)); auto. apply twins_more. auto.
Qed.
End Family.

(** C36.  Any number of builders, made and cloned at any time, called in any order.  If no checkpoint is given to a call outside
    the story of builder [i] and later to a call in it, then every call in that story returned what it would have returned with no
    other builder around, and the builder is what it would be.  (Missing: the other case, for which it is false: the refutations.) *)
Theorem C36_family_partial : forall T F (ops : list (fam_op T)) i b env,
  nth_error (sh_builders (fst (fam_run F shop_new ops))) i = Some (b, env) ->
  keeps_its_checkpoints F ops i ->
  let alone := run F world_new (map d_call (story F ops i)) in
  map d_result (story F ops i) = snd alone /\
  b_tree b = b_tree (w_builder (fst alone)) /\ b_parent b = b_parent (w_builder (fst alone)) /\
  b_sibling b = b_sibling (w_builder (fst alone)) /\ cursor b = cursor (w_builder (fst alone)) /\
  build b = build (w_builder (fst alone)) /\ length env = length (w_env (fst alone)).
Proof.
  intros T F ops i b env E K alone.
  destruct (fam_story F ops [] shop_new i world_new) with (b := b) (env := env) as [H1 [U H2]]; auto.
  - intros j b0 e0 H. destruct j; discriminate.
  - destruct (fst (deeds F shop_new ops i)); simpl; auto.
  - split; [intros d a _ _ _ []|exact K].
  - split; auto. destruct H2 as [[m S1] S2 _ _ _ _ _]. simpl in *. subst b. unfold alone, story. repeat split; auto.
Qed.
Print Assumptions C36_family_partial.

(** In particular, when [close_at] and [close_at_with] are never called outside of its story. *)
Theorem C36_quiet_partial : forall T F (ops : list (fam_op T)) i b env,
  nth_error (sh_builders (fst (fam_run F shop_new ops))) i = Some (b, env) ->
  (forall d, In d (snd (deeds F shop_new ops i)) -> d_own d = false ->
     match d_call d with OCloseAt _ _ | OCloseAtWith _ _ _ => False | _ => True end) ->
  let alone := run F world_new (map d_call (story F ops i)) in
  map d_result (story F ops i) = snd alone /\ b_tree b = b_tree (w_builder (fst alone)) /\
  build b = build (w_builder (fst alone)).
Proof.
  intros T F ops i b env E Q alone. destruct (C36_family_partial T F ops i b env E) as (H1 & H2 & _ & _ & _ & H3 & _); auto.
  assert (G : forall s d c, In d (snd (deeds F s ops i)) -> d_given d = Some c ->
     match d_call d with OCloseAt _ _ | OCloseAtWith _ _ _ => True | _ => False end).
  { clear. induction ops as [|o ops IH]; intros s d c; [intros []|]. cbn [deeds].
    destruct (fam_step F s o) as [s' r]. specialize (IH s' d c). destruct (deeds F s' ops i) as [me ds]. cbn [fst snd] in *.
    destruct o as [|j|j o]; auto; destruct (nth_error (sh_builders s) j) as [[b0 e0]|]; auto.
    intros [<-|H]; [|exact (IH H)]. simpl. destruct o; simpl; try discriminate; auto. }
  intros before e between d after c Ed Oe Od Ge _.
  assert (In e (snd (deeds F shop_new ops i))) as He by (rewrite Ed; apply in_app_iff; right; left; auto).
  pose proof (Q e He Oe) as Q1. pose proof (G _ e c He Ge) as Q2. destruct (d_call e); auto.
Qed.
Print Assumptions C36_quiet_partial.

(** Met by three builders.  The second is cloned from the first right after a checkpoint was taken; the first then uses that
    checkpoint while the second gets the same one, and leaves it alone, and later one of its own; the third is cloned from the second. *)
Definition family_ops : list (fam_op nat) :=
  [FNew; FCall 0 (OOpen 1); FCall 0 (OToken 2 3); FCall 0 OCheckpoint; FClone 0;
   FCall 1 OCheckpoint; FCall 0 (OToken 3 1); FCall 1 (OToken 5 2); FCall 0 (OCloseAt 0 4); FCall 1 (OTokenEmpty 9); FCall 1 OCheckpoint;
   FCall 1 (OToken 6 1); FClone 1; FCall 1 (OCloseAt 2 7); FCall 2 (OToken 8 1); FCall 0 OClose; FCall 1 OClose; FCall 2 OClose]%nat.
Example C36_family_inhabited :
  (forall i, i < 2 -> keeps_its_checkpoints flavor_default family_ops i) /\
  map d_call (story flavor_default family_ops 1) =
    [OOpen 1; OToken 2 3; OCheckpoint; OCheckpoint; OToken 5 2; OTokenEmpty 9; OCheckpoint; OToken 6 1; OCloseAt 2 7; OClose]%nat /\
  map d_result (story flavor_default family_ops 1) =
    [RNode 0; RNode 1; RCheckpoint; RCheckpoint; RNode 2; RNode 3; RCheckpoint; RNode 4; RNode 5; RUnit]%nat /\
  length (sh_builders (fst (fam_run flavor_default shop_new family_ops))) = 3.
Proof.
  split; [|vm_compute; auto].
  assert (G : forall i, i < 2 -> forallb (fun n => forallb (fun m =>
     match nth_error (snd (deeds flavor_default shop_new family_ops i)) n, nth_error (snd (deeds flavor_default shop_new family_ops i)) m with
     | Some e, Some d => Nat.leb m n || d_own e || negb (d_own d) || match d_given e, d_given d with Some a, Some b => negb (Nat.eqb a b) | _, _ => true end
     | _, _ => true end) (seq 0 20)) (seq 0 20) = true).
  { intros [|[|i]] Hi; [vm_compute; auto|vm_compute; auto|lia]. }
  assert (L : forall i, i < 2 -> length (snd (deeds flavor_default shop_new family_ops i)) < 20).
  { intros [|[|i]] Hi; [vm_compute; lia|vm_compute; lia|lia]. }
  intros i Hi before e between d after c Ed Oe Od Ge Gd. specialize (G i Hi). specialize (L i Hi).
  rewrite Ed in L. rewrite !app_length in L. simpl in L. rewrite app_length in L. simpl in L.
  rewrite forallb_forall in G. specialize (G (length before)). rewrite forallb_forall in G.
  assert (G' := G ltac:(apply in_seq; lia) (length before + S (length between)) ltac:(apply in_seq; lia)). clear G.
  rewrite Ed in G'. rewrite nth_error_app2, Nat.sub_diag in G' by lia. cbn [nth_error] in G'.
  rewrite nth_error_app2 in G' by lia. replace (length before + S (length between) - length before) with (S (length between)) in G' by lia.
  cbn [nth_error] in G'. rewrite nth_error_app2, Nat.sub_diag in G' by lia. cbn [nth_error] in G'.
  rewrite Oe, Od, Ge, Gd, Nat.eqb_refl in G'. simpl in G'. rewrite !Bool.orb_false_r in G'. apply Nat.leb_le in G'. lia.
Qed.

(** The refutations in [PropsClone] give one checkpoint to both. *)
Example C36_family_sharp :
  let ops := [FNew; FCall 0 OCheckpoint; FClone 0; FCall 1 OCheckpoint; FCall 0 OCheckpoint; FCall 0 (OToken 1 1); FCall 0 (OCloseAt 0 2);
              FCall 1 (OToken 3 1); FCall 1 (OCloseAt 0 4)]%nat : list (fam_op nat) in
  ~ keeps_its_checkpoints flavor_default ops 1 /\
  (exists b env, nth_error (sh_builders (fst (fam_run flavor_default shop_new ops))) 1 = Some (b, env) /\
     build b <> build (w_builder (fst (run flavor_default world_new (map d_call (story flavor_default ops 1)))))).
Proof.
  split.
  - intros K. unfold keeps_its_checkpoints in K.
    match type of K with context [snd ?x] => set (ds := snd x) in K end.
    apply (K (firstn 4 ds) (nth 4 ds (Deed true OClose RUnit None)) [nth 5 ds (Deed true OClose RUnit None)] (nth 6 ds (Deed true OClose RUnit None)) [] 0);
      vm_compute; reflexivity.
  - eexists; eexists. split; [vm_compute; reflexivity|]. vm_compute. discriminate.
Qed.
