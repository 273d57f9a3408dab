(** C36: cloned builders. *)
From Coq Require Import Lia.
From Verif Require Import Base Pointer Index Tree Builder Hist Clone Spec SpecMarks SpecClone Rep Refine AllHist StepFacts Sim PropsSafe.

Section Clone.
Context {T : Type}.
Variable F : flavor.
Hypothesis HF : vec_flavor F.
Implicit Types (b : builder T) (h : heap) (w : world T) (o : op T) (m : option nat).

(** A world used alone, [w], and the same builder next to another one, [w'].  Cells below [H0] existed
    at the time of the clone. *)
Record twin (H0 : nat) w w' : Prop := {
  tw_b : exists m, w_builder w' = set_b_checkpoint m (w_builder w);
  tw_len : length (w_env w) = length (w_env w');
  tw_low : H0 <= length (w_heap w) /\ H0 <= length (w_heap w');
  tw_env : forall k a, nth_error (w_env w) k = Some a -> exists a' c,
     nth_error (w_env w') k = Some a' /\ H0 <= a /\ H0 <= a' /\
     nth_error (w_heap w) a = Some c /\ nth_error (w_heap w') a' = Some c;
  tw_alias : forall k1 k2 a1 a2 a1' a2', nth_error (w_env w) k1 = Some a1 -> nth_error (w_env w) k2 = Some a2 ->
     nth_error (w_env w') k1 = Some a1' -> nth_error (w_env w') k2 = Some a2' -> (a1 = a2 <-> a1' = a2');
  tw_memo :
     (b_checkpoint (w_builder w) = b_checkpoint (w_builder w') /\
      forall a, b_checkpoint (w_builder w) = Some a -> a < H0 /\ exists c, nth_error (w_heap w) a = Some c /\
        nth_error (w_heap w') a = Some c /\ c_node c < tree_len (b_tree (w_builder w))) \/
     exists k a a', nth_error (w_env w) k = Some a /\ nth_error (w_env w') k = Some a' /\
        b_checkpoint (w_builder w) = Some a /\ b_checkpoint (w_builder w') = Some a';
}.

(** What a call does to the heap. *)
Definition apart h env h' env' : Prop :=
  length h <= length h' /\
  (forall x, x < length h -> ~ In x env -> nth_error h' x = nth_error h x) /\
  (forall x, In x env' -> In x env \/ length h <= x).

Lemma close_at_heap d osp a h b : let '(h', _, _) := close_at_gen F a d osp h b in
  h' = h \/ exists c, h' = upd h a (fun _ => c).
Proof.
  pose proof (close_at_shape F d osp a h b) as G. destruct (close_at_gen F a d osp h b) as [[h' b'] r].
  destruct G as (_ & _ & [->|(i & p & _ & _ & ->)]); eauto.
Qed.

(** One call, taken in both worlds. *)
Lemma twin_step H0 w w' o : wok w -> (forall a, In a (w_env w') -> H0 <= a) -> twin H0 w w' ->
  snd (step F w' o) = snd (step F w o) /\ twin H0 (fst (step F w o)) (fst (step F w' o)) /\
  apart (w_heap w') (w_env w') (w_heap (fst (step F w' o))) (w_env (fst (step F w' o))).
Proof.
  intros Hw Hge HT. pose proof (step_ok F HF w o Hw) as [Hw1 Hf]. pose proof (step_len F HF w o Hf) as Hlen.
  assert (Hle : tree_len (b_tree (w_builder w)) <= tree_len (b_tree (w_builder (fst (step F w o))))).
  { rewrite Hlen. destruct (snd (step F w o)); lia. }
  destruct (local o) eqn:Hl.
  - destruct (local_shape F w o Hl) as (L1 & L2 & L3). destruct (local_shape F w' o Hl) as (L1' & L2' & L3').
    destruct HT as [[m S1] S2 S3 S4 S5 S6]. destruct w as [h b env], w' as [h' b' env']. simpl in *. subst b'.
    destruct (local_step_memo F o h h' m b env env' Hl) as (b1 & r & E1 & E2). rewrite E1, E2 in *. simpl in *.
    split; auto. split; [|repeat split; auto]. constructor; simpl; eauto.
    rewrite L3. destruct S6 as [[A B]|B]; [left|right; exact B]. split; auto.
    intros a Ea. destruct (B a Ea) as (X & c & Y1 & Y2 & Y3). split; auto. exists c. repeat split; auto. lia.
  - assert (CA : forall k d osp,
      let st (w : world T) := match nth_error (w_env w) k with None => (w, RNoHandle) | Some a =>
        let '(h, b, r) := close_at_gen F a d osp (w_heap w) (w_builder w) in (World h b (w_env w), out_node r) end in
      tree_len (b_tree (w_builder w)) <= tree_len (b_tree (w_builder (fst (st w)))) ->
      snd (st w') = snd (st w) /\ twin H0 (fst (st w)) (fst (st w')) /\
      apart (w_heap w') (w_env w') (w_heap (fst (st w'))) (w_env (fst (st w')))).
    { intros k d osp st Hle'. unfold st in *. clear st. destruct HT as [[m S1] S2 S3 S4 S5 S6].
      destruct (nth_error (w_env w) k) as [a|] eqn:Ek.
      2:{ assert (nth_error (w_env w') k = None) as ->.
          { apply nth_error_None. rewrite <- S2. apply nth_error_None. auto. }
          split; auto. split; [|repeat split; auto]. constructor; eauto. }
      destruct (S4 k a Ek) as (a' & c & Ek' & Hga & Hga' & Ec & Ec'). rewrite Ek'.
      destruct (close_at_memo F d osp a a' c (w_heap w) (w_heap w') m (w_builder w) Ec Ec') as
        (h1 & h1' & b1 & r & c1 & E1 & E2 & R1 & R2).
      pose proof (close_at_shape F d osp a (w_heap w) (w_builder w)) as SH.
      pose proof (close_at_shape F d osp a' (w_heap w') (set_b_checkpoint m (w_builder w))) as SH'.
      rewrite S1, E1, E2 in *. destruct SH as (SH & _ & _), SH' as (SH' & _ & _). simpl in *. split; auto. split.
      - assert (LW : length h1 = length (w_heap w)) by (destruct c1; simpl in R1; subst h1; rewrite ?length_upd; auto).
        assert (LW' : length h1' = length (w_heap w')) by (destruct c1; simpl in R2; subst h1'; rewrite ?length_upd; auto).
        constructor; simpl; eauto.
        + rewrite LW, LW'. auto.
        + intros k2 a2 Ek2. destruct (S4 k2 a2 Ek2) as (a2' & c2 & Ek2' & G1 & G2 & Ec2 & Ec2').
          destruct c1 as [c1|]; simpl in R1, R2; subst h1 h1'; [|exists a2', c2; auto 6].
          exists a2'. pose proof (S5 _ _ _ _ _ _ Ek Ek2 Ek' Ek2') as Hal.
          destruct (Nat.eq_dec a a2) as [->|Hne].
          * assert (a' = a2') as -> by (apply Hal; auto). exists c1. rewrite !nth_upd, !Nat.eqb_refl, Ec2, Ec2'. auto.
          * exists c2. rewrite !nth_upd_other; auto. intros X. apply Hne, Hal. auto.
        + rewrite SH. destruct S6 as [[A B]|B]; [left; split; auto|right; exact B].
          intros x Ex. destruct (B x Ex) as (X & cx & Y1 & Y2 & Y3). split; auto. exists cx.
          destruct c1 as [c1|]; simpl in R1, R2; subst h1 h1'; [rewrite !nth_upd_other by lia|]; repeat split; auto; lia.
      - repeat split; auto.
        + destruct c1; simpl in R2; subst h1'; rewrite ?length_upd; auto.
        + intros x Hx Hn. destruct c1; simpl in R2; subst h1'; auto. apply nth_upd_other.
          intros ->. apply Hn. eapply nth_error_In; eauto. }
    destruct o; simpl in Hl; try discriminate.
    + clear CA. destruct HT as [[m S1] S2 [S3 S3'] S4 S5 S6]. destruct w as [h b env], w' as [h' b' env']. simpl in *.
      clear Hlen Hf Hle. unfold checkpoint in *. rewrite S1. simpl. destruct (pointer_new F _) as [n|] eqn:En.
      2:{ simpl. split; auto. split; [|repeat split; auto]. subst b'. constructor; simpl; eauto. }
      assert (n = tree_len (b_tree b)) as ->. { rewrite pointer_new_spec in En. destruct (_ <=? _)%N; congruence. }
      assert (FR : twin H0 (World (h ++ [Cell (tree_len (b_tree b)) (b_parent b)]) (set_b_checkpoint (Some (length h)) b) (env ++ [length h]))
           (World (h' ++ [Cell (tree_len (b_tree b)) (b_parent b)]) (set_b_checkpoint (Some (length h')) (set_b_checkpoint m b)) (env' ++ [length h'])) /\
           apart h' env' (h' ++ [Cell (tree_len (b_tree b)) (b_parent b)]) (env' ++ [length h'])).
      { assert (CASES : forall k x, nth_error (env ++ [length h]) k = Some x ->
          (k < length env /\ nth_error env k = Some x) \/ (k = length env /\ x = length h)).
        { intros k x Ek. destruct (Nat.lt_ge_cases k (length env)) as [Hlk|Hlk].
          - left. rewrite nth_error_app1 in Ek by auto. auto.
          - right. assert (k = length env) as -> by (apply nth_lt in Ek; rewrite app_length in Ek; simpl in Ek; lia).
            rewrite nth_error_app2, Nat.sub_diag in Ek by lia. simpl in Ek. split; congruence. }
        assert (NEW : nth_error (env' ++ [length h']) (length env) = Some (length h')).
        { rewrite S2, nth_error_app2, Nat.sub_diag by lia. auto. }
        split.
        - constructor; simpl.
          + eexists. reflexivity.
          + rewrite !app_length. simpl. lia.
          + rewrite !app_length. simpl. lia.
          + intros k a Ek. destruct (CASES k a Ek) as [[Hk Ea]|[-> ->]].
            * destruct (S4 k a Ea) as (a' & c & Y1 & Y2 & Y3 & Y4 & Y5). exists a', c.
              rewrite !nth_error_app1; auto 6; try (eapply nth_lt; eauto; fail). 
            * rewrite NEW. exists (length h'), (Cell (tree_len (b_tree b)) (b_parent b)).
              rewrite !nth_error_app2, !Nat.sub_diag by lia. auto 6.
          + intros k1 k2 a1 a2 a1' a2' E1 E2. destruct (CASES k1 a1 E1) as [[L3 X1]|[-> ->]], (CASES k2 a2 E2) as [[L4 X2]|[-> ->]];
              rewrite ?NEW; rewrite ?nth_error_app1 by lia.
            * eauto.
            * intros Y1 Y2. injection Y2 as <-. destruct (S4 k1 a1 X1) as (a' & c & Z1 & _ & _ & Z4 & Z5).
              rewrite Y1 in Z1. injection Z1 as <-. apply nth_lt in Z4, Z5. split; lia.
            * intros Y1 Y2. injection Y1 as <-. destruct (S4 k2 a2 X2) as (a' & c & Z1 & _ & _ & Z4 & Z5).
              rewrite Y2 in Z1. injection Z1 as <-. apply nth_lt in Z4, Z5. split; lia.
            * intros Y1 Y2. split; congruence.
          + right. exists (length env), (length h), (length h'). rewrite NEW.
            rewrite nth_error_app2, Nat.sub_diag by lia. auto.
        - repeat split.
          + rewrite app_length. lia.
          + intros x Hx _. apply nth_error_app1. auto.
          + intros x Hx. apply in_app_iff in Hx as [Hx|[<-|[]]]; auto. }
      destruct S6 as [[A B]|(k & a & a' & K1 & K2 & K3 & K4)].
      * rewrite S1 in A. simpl in A. rewrite <- A.
        destruct (b_checkpoint b) as [x|] eqn:Ex; [|split; auto; exact FR].
        destruct (B x eq_refl) as (X & cx & Y1 & Y2 & Y3). rewrite Y1, Y2.
        assert (Nat.eqb (c_node cx) (tree_len (b_tree b)) = false) as -> by (apply Nat.eqb_neq; lia).
        simpl. split; auto; exact FR.
      * rewrite S1 in K4. simpl in K4. rewrite K3, K4. destruct (S4 k a K1) as (a2 & c & Z1 & Z2 & Z3 & Z4 & Z5).
        rewrite K2 in Z1. injection Z1 as <-. rewrite Z4, Z5.
        destruct (_ && _) eqn:Ehit; [|split; auto; exact FR]. simpl. split; auto. split.
        -- assert (CASES : forall j x, nth_error (env ++ [a]) j = Some x ->
             exists i, nth_error env i = Some x /\ (forall l, nth_error (env' ++ [a']) j = Some l -> nth_error env' i = Some l) /\
               (exists y, nth_error (env' ++ [a']) j = Some y)).
           { intros j x Ej. destruct (Nat.lt_ge_cases j (length env)) as [Hlk|Hlk].
             - exists j. rewrite nth_error_app1 in Ej by auto. rewrite nth_error_app1 by lia. split; auto. split; auto.
               destruct (S4 j x Ej) as (y & ? & ? & _). eauto.
             - exists k. assert (j = length env) as -> by (apply nth_lt in Ej; rewrite app_length in Ej; simpl in Ej; lia).
               rewrite nth_error_app2, Nat.sub_diag in Ej by lia. simpl in Ej. injection Ej as <-.
               rewrite S2, nth_error_app2, Nat.sub_diag by lia. simpl. split; auto. split; [congruence|eauto]. }
           constructor; simpl.
           ++ exists m. rewrite K4. auto.
           ++ rewrite !app_length. simpl. lia.
           ++ auto.
           ++ intros j x Ej. destruct (CASES j x Ej) as (i & I1 & I2 & y & I3). rewrite I3.
              destruct (S4 i x I1) as (x' & cx & Y1 & Y2). rewrite (I2 _ I3) in Y1. injection Y1 as <-. exists y, cx. tauto.
           ++ intros k1 k2 a1 a2 a1' a2' E1 E2 E3 E4.
              destruct (CASES k1 a1 E1) as (i1 & I1 & I2 & _), (CASES k2 a2 E2) as (i2 & J1 & J2 & _). eauto.
           ++ right. exists k, a, a'. rewrite !nth_error_app1; [auto|eapply nth_lt; eauto|eapply nth_lt; eauto].
        -- repeat split; auto. intros x Hx. apply in_app_iff in Hx as [Hx|[<-|[]]]; auto.
           left. eapply nth_error_In; eauto.
    + exact (CA k d None Hle).
    + exact (CA k d (Some sp) Hle).
Qed.

(** A call on the other builder. *)
Lemma twin_other H0 w w' h' : twin H0 w w' -> length (w_heap w') <= length h' ->
  (forall x, x < H0 \/ In x (w_env w') -> nth_error h' x = nth_error (w_heap w') x) ->
  twin H0 w (World h' (w_builder w') (w_env w')).
Proof.
  intros [S1 S2 [S3 S3'] S4 S5 S6] Hle Hsame. constructor; simpl; eauto.
  - split; lia.
  - intros k a Ek. destruct (S4 k a Ek) as (a' & c & Y1 & Y2 & Y3 & Y4 & Y5). exists a', c.
    rewrite Hsame by (right; eapply nth_error_In; eauto). auto.
  - destruct S6 as [[A B]|B]; [left; split; auto|right; auto].
    intros a Ea. destruct (B a Ea) as (X & c & Y1 & Y2 & Y3). split; auto. exists c. rewrite Hsame by auto. auto.
Qed.

Definition view_of (side : bool) (p : pair T) : world T := if side then left_world p else right_world p.

Lemma pair_runs H0 ops : forall p wl wr, wok wl -> wok wr ->
  twin H0 wl (left_world p) -> twin H0 wr (right_world p) ->
  (forall x, In x (p_left_env p) -> H0 <= x < length (p_heap p) /\ ~ In x (p_right_env p)) ->
  (forall x, In x (p_right_env p) -> H0 <= x < length (p_heap p)) ->
  forall side,
  results_on side ops (snd (pair_run F p ops)) = snd (run F (if side then wl else wr) (calls_on side ops)) /\
  exists m, builder_of side (fst (pair_run F p ops)) =
    set_b_checkpoint m (w_builder (fst (run F (if side then wl else wr) (calls_on side ops)))).
Proof.
  induction ops as [|[s o] ops IH]; intros p wl wr Hwl Hwr Hl Hr Hdl Hdr side.
  - simpl. destruct side; split; auto; [apply (tw_b _ _ _ Hl)|apply (tw_b _ _ _ Hr)].
  - cbn [pair_run]. destruct s; unfold pair_step; cbn [fst snd].
    + destruct (twin_step H0 wl (left_world p) o Hwl) as (E1 & E2 & A1 & A2 & A3); auto.
      { intros a Ha. apply Hdl in Ha. lia. }
      pose proof (proj1 (step_ok F HF wl o Hwl)) as Hw1.
      destruct (step F (left_world p) o) as [w1 r1] eqn:Es. simpl fst in *. simpl snd in *.
      match goal with |- context [pair_run F ?q ops] => set (q1 := q) end.
      specialize (IH q1 (fst (step F wl o)) wr Hw1 Hwr).
      assert (HL' : twin H0 (fst (step F wl o)) (left_world q1)) by (destruct w1; exact E2).
      assert (HR' : twin H0 wr (right_world q1)).
      { apply (twin_other H0 wr (right_world p)); auto. simpl. intros x Hx. apply A2.
        - destruct Hx as [Hx|Hx]; [|apply Hdr in Hx; simpl; lia]. destruct (tw_low _ _ _ Hl) as [_ HH]. simpl in HH. simpl. lia.
        - intros Hin. destruct (Hdl x Hin) as [HH Hn]. destruct Hx as [Hx|Hx]; [lia|]. auto. }
      assert (HD1 : forall x, In x (p_left_env q1) -> H0 <= x < length (p_heap q1) /\ ~ In x (p_right_env q1)).
      { simpl. intros x Hx. destruct (tw_low _ _ _ Hl) as [_ HH]. simpl in HH.
        destruct (A3 x Hx) as [Hx'|Hx'].
        - destruct (Hdl x Hx') as [U V]. simpl in A1. split; [lia|auto].
        - simpl in Hx'. split; [|intros Hin; apply Hdr in Hin; lia]. split; [lia|].
          apply In_nth_error in Hx as [k Hk]. destruct E2 as [_ T2 _ T4 _ _].
          destruct (nth_error (w_env (fst (step F wl o))) k) as [a|] eqn:Ea;
            [|apply nth_error_None in Ea; apply nth_lt in Hk; lia].
          destruct (T4 k a Ea) as (a' & c & Y1 & _ & _ & _ & Y5). rewrite Hk in Y1. injection Y1 as <-. eapply nth_lt; eauto. }
      assert (HD2 : forall x, In x (p_right_env q1) -> H0 <= x < length (p_heap q1)).
      { simpl. intros x Hx. apply Hdr in Hx. simpl in A1. lia. }
      specialize (IH HL' HR' HD1 HD2 side).
      destruct (pair_run F q1 ops) as [p2 rs]. simpl. destruct side; simpl in *; [|exact IH].
      rewrite (surjective_pairing (step F wl o)). rewrite (surjective_pairing (run F (fst (step F wl o)) (calls_on true ops))).
      simpl. rewrite E1. destruct IH as [-> IH]. auto.
    + destruct (twin_step H0 wr (right_world p) o Hwr) as (E1 & E2 & A1 & A2 & A3); auto.
      { intros a Ha. apply Hdr in Ha. lia. }
      pose proof (proj1 (step_ok F HF wr o Hwr)) as Hw1.
      destruct (step F (right_world p) o) as [w1 r1] eqn:Es. simpl fst in *. simpl snd in *.
      match goal with |- context [pair_run F ?q ops] => set (q1 := q) end.
      specialize (IH q1 wl (fst (step F wr o)) Hwl Hw1).
      assert (HR' : twin H0 (fst (step F wr o)) (right_world q1)) by (destruct w1; exact E2).
      assert (HL' : twin H0 wl (left_world q1)).
      { apply (twin_other H0 wl (left_world p)); auto. simpl. intros x Hx. apply A2.
        - destruct Hx as [Hx|Hx]; [|apply Hdl in Hx; simpl; lia]. destruct (tw_low _ _ _ Hr) as [_ HH]. simpl in HH. simpl. lia.
        - intros Hin. destruct Hx as [Hx|Hx]; [apply Hdr in Hin; lia|]. destruct (Hdl x Hx). auto. }
      assert (HD : forall x, In x (p_right_env q1) -> H0 <= x < length (p_heap q1) /\ ~ In x (p_left_env q1)).
      { simpl. intros x Hx. destruct (tw_low _ _ _ Hr) as [_ HH]. simpl in HH.
        destruct (A3 x Hx) as [Hx'|Hx'].
        - pose proof (Hdr x Hx') as U. simpl in A1. split; [lia|]. intros Hin. destruct (Hdl x Hin). auto.
        - simpl in Hx'. split; [|intros Hin; apply Hdl in Hin; lia]. split; [lia|].
          apply In_nth_error in Hx as [k Hk]. destruct E2 as [_ T2 _ T4 _ _].
          destruct (nth_error (w_env (fst (step F wr o))) k) as [a|] eqn:Ea;
            [|apply nth_error_None in Ea; apply nth_lt in Hk; lia].
          destruct (T4 k a Ea) as (a' & c & Y1 & _ & _ & _ & Y5). rewrite Hk in Y1. injection Y1 as <-. eapply nth_lt; eauto. }
      assert (HD1 : forall x, In x (p_left_env q1) -> H0 <= x < length (p_heap q1) /\ ~ In x (p_right_env q1)).
      { intros x Hx. split; [apply Hdl in Hx; simpl in *; lia|]. intros Hin. apply HD in Hin as [_ Hin]. auto. }
      assert (HD2 : forall x, In x (p_right_env q1) -> H0 <= x < length (p_heap q1)).
      { intros x Hx. apply HD in Hx. tauto. }
      specialize (IH HL' HR' HD1 HD2 side).
      destruct (pair_run F q1 ops) as [p2 rs]. simpl. destruct side; simpl in *; [exact IH|].
      rewrite (surjective_pairing (step F wr o)). rewrite (surjective_pairing (run F (fst (step F wr o)) (calls_on false ops))).
      simpl. rewrite E1. destruct IH as [-> IH]. auto.
Qed.

(** If a node was added since the last checkpoint, every cell names an earlier place. *)
Definition behind w : Prop := forall a c, nth_error (w_heap w) a = Some c -> c_node c < tree_len (b_tree (w_builder w)).

Lemma step_heap w o : wok w -> snd (step F w o) <> RCheckpoint ->
  forall a c, nth_error (w_heap (fst (step F w o))) a = Some c ->
  nth_error (w_heap w) a = Some c \/ c_node c = tree_len (b_tree (w_builder w)) /\ exists i, snd (step F w o) = RNode i.
Proof.
  intros Hw Hn a c. destruct (local o) eqn:Hl; [destruct (local_shape F w o Hl) as (-> & _); auto|].
  assert (CA : forall k d osp, let st := match nth_error (w_env w) k with None => (w, RNoHandle) | Some a =>
        let '(h, b, r) := close_at_gen F a d osp (w_heap w) (w_builder w) in (World h b (w_env w), out_node r) end in
      nth_error (w_heap (fst st)) a = Some c ->
      nth_error (w_heap w) a = Some c \/ c_node c = tree_len (b_tree (w_builder w)) /\ exists i, snd st = RNode i).
  { intros k d osp. destruct (nth_error (w_env w) k) as [x|]; simpl; auto.
    pose proof (close_at_shape F d osp x (w_heap w) (w_builder w)) as G.
    destruct (close_at_gen F x d osp (w_heap w) (w_builder w)) as [[h' b'] r]. simpl.
    destruct G as (_ & _ & [->|(i & p & -> & Hp & ->)]); auto.
    rewrite nth_upd. destruct (Nat.eqb_spec x a) as [->|]; auto.
    destruct (nth_error (w_heap w) a); [|discriminate]. simpl. intros E. injection E as <-. right. simpl.
    rewrite pointer_new_spec in Hp. destruct (_ <=? _)%N; [discriminate|]. injection Hp as <-. eauto. }
  destruct o; simpl in Hl; try discriminate.
  - destruct w as [h b env]. simpl in *. unfold checkpoint in *. destruct (pointer_new _ _); simpl in *; auto.
    destruct (b_checkpoint b) as [x|]; [|simpl in *; congruence].
    destruct (nth_error h x); [|simpl in *; congruence]. destruct (_ && _); simpl in *; congruence.
  - exact (CA k d None).
  - exact (CA k d (Some sp)).
Qed.

Lemma behind_run ops : forall w q, wok w -> (q = true -> behind w) ->
  moved_on q ops (snd (run F w ops)) = true -> behind (fst (run F w ops)).
Proof.
  induction ops as [|o ops IH]; intros w q Hw Hq; [simpl; auto|].
  destruct (step_ok F HF w o Hw) as [Hw1 Hf]. pose proof (step_len F HF w o Hf) as Hlen.
  pose proof (step_heap w o Hw) as Hh. simpl.
  destruct (step F w o) as [w1 r]. simpl in *.
  assert (G : forall q1, (q1 = true -> behind w1) -> moved_on q1 ops (snd (run F w1 ops)) = true -> behind (fst (run F w1 ops)))
    by (intros q1; apply IH; auto).
  assert (Keep : forall e, r = e -> e <> RCheckpoint -> (forall i, e <> RNode i) -> (q = true -> behind w1)).
  { intros e -> He Hn Hqt a c Ec. destruct (Hh He a c Ec) as [E|[_ [i E]]]; [|apply Hn in E; tauto].
    rewrite Hlen. destruct e; try (apply (Hq Hqt a c E)). destruct (Hn id); auto. }
  destruct (run F w1 ops) as [w2 rs]. simpl in *.
  destruct r; simpl; try (apply G; eapply Keep; [reflexivity|discriminate|discriminate]).
  - apply G. intros _ a c Ec. destruct (Hh ltac:(discriminate) a c Ec) as [E|[E _]]; rewrite Hlen; [|lia].
    apply (cells_le w a c Hw) in E. lia.
  - apply G. discriminate.
Qed.

Lemma alone_wok w : wok w -> wok (alone w).
Proof. intros [H _]. split; auto. intros a []. Qed.

End Clone.

(** C36.  Clone a builder after any history in which a node was added since the last checkpoint was
    taken.  Then, in every interleaving of calls on the two builders (with the checkpoints each of
    them gives after the clone), every call returns what it would if the other builder did not exist,
    and both end with the tree, cursor and [build] result they would have alone.  (Missing: a
    checkpoint taken right before the clone, or one taken before the clone and used after it; see the
    refutations.) *)
Theorem C36_independent_partial : forall T F (pre : list (op T)) (ops : list (bool * op T)) side,
  vec_flavor F -> moved_on true pre (run_outs F pre) = true ->
  let w := run_world F pre in
  let p := fst (pair_run F (cloned w) ops) in
  let solo := run F (alone w) (calls_on side ops) in
  results_on side ops (snd (pair_run F (cloned w) ops)) = snd solo /\
  b_tree (builder_of side p) = b_tree (w_builder (fst solo)) /\
  cursor (builder_of side p) = cursor (w_builder (fst solo)) /\
  build (builder_of side p) = build (w_builder (fst solo)).
Proof.
  intros T F pre ops side HF Hm w p solo.
  assert (Hw : wok w) by (apply run_wok; auto).
  assert (Hl : late w) by (apply (late_run F HF pre world_new wok_new late_new)).
  assert (Hb : behind w).
  { apply (behind_run F HF pre world_new true wok_new); auto. intros _ a c E. destruct a; discriminate. }
  assert (TW : twin (length (w_heap w)) (alone w) (alone w)).
  { constructor; simpl; auto.
    - exists (b_checkpoint (w_builder w)). destruct (w_builder w); auto.
    - intros [|k]; discriminate.
    - intros [|k1]; discriminate.
    - left. split; auto. intros a Ea. pose proof (lt_env _ Hl a Ea) as Hin. apply Hw in Hin. split; auto.
      destruct (nth_in (w_heap w) a Hin) as [c Ec]. exists c. repeat split; auto. apply (Hb a c Ec). }
  assert (TR : twin (length (w_heap w)) (alone w) (right_world (cloned w))).
  { replace (right_world (cloned w)) with (alone w); auto.
    unfold right_world, cloned, builder_clone, alone. simpl. destruct (w_builder w); auto. }
  destruct (pair_runs F HF (length (w_heap w)) ops (cloned w) (alone w) (alone w)) with (side := side) as [E1 [m E2]];
    try (apply alone_wok; auto); auto; try (simpl; tauto).
  unfold p, solo. destruct side; split; auto; rewrite E2; auto.
Qed.
Print Assumptions C36_independent_partial.

(** The hypotheses can be met with live checkpoints on both sides, taken after the clone at the same
    place and used in turns. *)
Example C36_example :
  let pre := [OCheckpoint; OOpen 1; OToken 2 3] : list (op nat) in
  let ops := [(true, OCheckpoint); (false, OCheckpoint); (true, OToken 3 1); (true, OCloseAt 0 4);
              (false, OToken 5 2); (false, OCloseAt 0 6); (true, OClose); (false, OClose)] in
  moved_on true pre (run_outs flavor_default pre) = true /\
  snd (pair_run flavor_default (cloned (run_world flavor_default pre)) ops) =
    [RCheckpoint; RCheckpoint; RNode 2; RNode 3; RNode 2; RNode 3; RUnit; RUnit].
Proof. vm_compute. auto. Qed.

(** A checkpoint taken right before the clone is shared: the next checkpoint of the clone is the very
    same one, and [close_at] on the original moves it, so that [close_at] on the clone wraps nothing
    instead of the token 3. *)
Theorem C36_live_refuted : exists (pre : list (op nat)) ops,
  let F := flavor_default in
  let w := run_world F pre in
  pre = [OCheckpoint] /\
  ops = [(false, OCheckpoint); (true, OCheckpoint); (true, OToken 1 1); (true, OCloseAt 0 2);
         (false, OToken 3 1); (false, OCloseAt 0 4)] /\
  build (p_right (fst (pair_run F (cloned w) ops))) <>
    build (w_builder (fst (run F (alone w) (calls_on false ops)))).
Proof.
  eexists; eexists. split; [reflexivity|]. split; [reflexivity|]. vm_compute. discriminate.
Qed.
Print Assumptions C36_live_refuted.

(** The same can happen long after the checkpoint was taken, when it is used on the original after the
    clone: the calls on the clone are checkpoint, token, close_at, all with its own checkpoint, and
    they return an internal error. *)
Theorem C36_old_refuted : exists (pre : list (op nat)) ops,
  let F := flavor_default in
  let w := run_world F pre in
  let p := Pair (w_heap w) (w_builder w) (w_env w) (builder_clone (w_builder w)) [] in
  pre = [OCheckpoint; OToken 1 1] /\ moved_on true pre (run_outs F pre) = true /\
  ops = [(true, OCloseAt 0 2); (false, OCheckpoint); (true, OToken 8 1); (true, OCloseAt 0 9);
         (false, OToken 3 1); (false, OCloseAt 0 4)] /\
  results_on false ops (snd (pair_run F p ops)) = [RCheckpoint; RNode 1; RErr (MissingNode 2)] /\
  snd (run F (alone w) (calls_on false ops)) = [RCheckpoint; RNode 1; RNode 2].
Proof.
  eexists; eexists. split; [reflexivity|]. split; [reflexivity|]. split; [reflexivity|]. vm_compute. auto.
Qed.
Print Assumptions C36_old_refuted.
