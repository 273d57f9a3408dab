(** C48: structured use of a builder gives the tree a function returning trees would. *)
From Coq Require Import Lia.
From Verif Require Import Base Pointer Index Tree Builder Hist Node Iter Print Spec SpecEq SpecProgram Rep Refine TreeRep
  DocInv WalkThms Demo PropsTree PropsMacro.
From Verif Require Layout.

Section Program.
Context {T : Type}.
Variable F : flavor.
Hypothesis HE : fl_index F <> IxEmpty.
Implicit Types (a : doc T) (p : prog T) (g : gtree T).

Lemma lay_node c d (kids : list (gtree T)) : lay c (GNode d kids) = Sh d (Span c (c + widths kids)) (lay_list c kids).
Proof.
  simpl. f_equal. generalize c. induction kids as [|g kids IH]; intros c'; simpl; auto. rewrite IH. auto.
Qed.
Lemma widths_app (l m : list (gtree T)) : widths (l ++ m) = (widths l + widths m)%N.
Proof. induction l; simpl; auto. unfold widths in *. simpl. lia. Qed.
Lemma lay_app (l m : list (gtree T)) : forall c, lay_list c (l ++ m) = lay_list c l ++ lay_list (c + widths l)%N m.
Proof.
  induction l as [|g l IH]; intros c; simpl. { unfold widths; simpl. rewrite N.add_0_r. auto. }
  rewrite IH. unfold widths. simpl. rewrite N.add_assoc. auto.
Qed.
Lemma sizes_app (l m : list (gtree T)) : sizes (l ++ m) = sizes l + sizes m.
Proof. induction l; simpl; auto. unfold sizes in *. simpl. lia. Qed.
Lemma width_node d (kids : list (gtree T)) : width (GNode d kids) = widths kids. Proof. auto. Qed.
Lemma size_node d (kids : list (gtree T)) : size (GNode d kids) = S (sizes kids). Proof. auto. Qed.

(** Laid-out siblings: where the run starts and ends. *)
Lemma lay_span c g : exists d kids, lay c g = Sh d (Span c (c + width g)) kids.
Proof. destruct g; simpl; eauto. Qed.
Lemma lay_run : forall gs c (x : rose T) w, map erase (x :: w) = lay_list c gs -> run_span x w = Span c (c + widths gs).
Proof.
  assert (G : forall gs c (x : rose T) w, map erase (x :: w) = lay_list c gs -> run_end x w = (c + widths gs)%N /\ s_start (r_span x) = c).
  { induction gs as [|g gs IH]; intros c x w E; [discriminate|]. simpl in E. injection E as Ex Ew.
    destruct (lay_span c g) as (d & kids & Eg). rewrite Eg in Ex. destruct x as [i k dx sp ks]. simpl in Ex. injection Ex as -> -> _.
    split; [|auto]. destruct w as [|y w]; simpl.
    - destruct gs; [|discriminate]. unfold widths; simpl. lia.
    - destruct (IH (c + width g)%N y w Ew) as [-> _]. unfold widths; simpl. lia. }
  intros gs c x w E. destruct (G gs c x w E) as [G1 G2]. unfold run_span. congruence.
Qed.

(** Documents in which the innermost open node reaches the cursor. *)
Definition snug a : Prop :=
  match a_open a with [] => True | f :: _ => (s_start (f_span f) <= a_cursor a)%N /\ s_end (f_span f) = a_cursor a end.
Definition fresh a : Prop :=
  (forall f, In f (a_open a) -> f_id f < a_n a) /\ (forall m i, In m (a_marks a) -> mark_level m = Some i -> i < a_n a).

Lemma touch_snug a : snug a -> touch (a_cursor a) (a_open a) = a_open a.
Proof.
  unfold snug, touch. destruct (a_open a) as [|[i d [s e] lf] fs]; auto. simpl. intros [_ ->]. auto.
Qed.
Lemma touch_touch e e' (fs : list (frame T)) : touch e (touch e' fs) = touch e fs.
Proof. destruct fs as [|f fs]; simpl; auto. Qed.
Lemma level_touch e (fs : list (frame T)) : level (touch e fs) = level fs. Proof. destruct fs; auto. Qed.
Lemma snug_touch c (fs : list (frame T)) : match fs with [] => True | f :: _ => (s_start (f_span f) <= c)%N end ->
  match touch c fs with [] => True | f :: _ => (s_start (f_span f) <= c)%N /\ s_end (f_span f) = c end.
Proof. destruct fs; simpl; auto. Qed.
Lemma in_touch e (fs : list (frame T)) f : In f (touch e fs) -> exists f', In f' fs /\ f_id f = f_id f'.
Proof. destruct fs as [|f0 fs]; simpl; [tauto|]. intros [<-|H]; [exists f0; auto|exists f; auto]. Qed.

(** One stretch of a program: the siblings from position [pos] on, laid out from [c0]. *)
Record stage (pos : nat) (c0 : N) (acc : list (gtree T)) a : Prop := {
  st_pos : pos <= length (a_cur a);
  st_lay : map erase (skipn pos (a_cur a)) = lay_list c0 acc;
  st_cursor : a_cursor a = (c0 + widths acc)%N;
  st_snug : snug a;
  st_fresh : fresh a;
}.
Record moved (pos : nat) (a a' : doc T) : Prop := {
  mv_before : firstn pos (a_cur a') = firstn pos (a_cur a);
  mv_open : a_open a' = touch (a_cursor a') (a_open a);
  mv_marks : forall j m, nth_error (a_marks a) j = Some m ->
    (forall l q, m = MAt l q -> l = level (a_open a) -> q <= pos) -> nth_error (a_marks a') j = Some m;
  mv_n : a_n a <= a_n a';
}.

Lemma moved_trans pos a b c : moved pos a b -> moved pos b c -> moved pos a c.
Proof.
  intros [A1 A2 A3 A4] [B1 B2 B3 B4]. constructor.
  - congruence.
  - rewrite B2, A2, touch_touch. auto.
  - intros j m Hm Hq. apply B3; auto. intros l q E1 E2. eapply Hq; eauto. rewrite E2, A2, level_touch. auto.
  - lia.
Qed.
Lemma moved_weaken pos pos' a b : pos <= pos' -> moved pos' a b -> moved pos a b.
Proof.
  intros Hp [A1 A2 A3 A4]. constructor; auto.
  - rewrite <- (Nat.min_l pos pos') by auto. rewrite <- !firstn_firstn. congruence.
  - intros j m Hm Hq. apply A3; auto. intros l q E1 E2. specialize (Hq l q E1 E2). lia.
Qed.

(** A complete tree added at the end. *)
Lemma add_one pos c0 acc a (x : rose T) g e idx : stage pos c0 acc a -> erase x = lay (a_cursor a) g -> (e = a_cursor a + width g)%N ->
  let a' := Doc (a_cur a ++ [x]) (touch e (a_open a)) (S (a_n a)) e (match idx with true => set_end (a_span a) e | false => a_span a end) (a_index a) (a_marks a) in
  stage pos c0 (acc ++ [g]) a' /\ moved pos a a'.
Proof.
  intros [H1 H2 H3 H4 H5] Ex Ee a'. split.
  - constructor; simpl.
    + rewrite app_length. simpl. lia.
    + rewrite skipn_app, map_app, H2, lay_app. replace (pos - length (a_cur a)) with 0 by lia. simpl. rewrite Ex, H3. auto.
    + rewrite widths_app. unfold widths at 2. simpl. rewrite Ee, H3. lia.
    + unfold snug. simpl. apply snug_touch. unfold snug in H4. destruct (a_open a) as [|f fs]; auto. destruct H4. lia.
    + destruct H5 as [H5 H6]. split; simpl.
      * intros f Hf. apply in_touch in Hf as (f' & Hf & ->). specialize (H5 f' Hf). lia.
      * intros m i Hm Hi. specialize (H6 m i Hm Hi). lia.
  - constructor; simpl; auto. rewrite firstn_app. replace (pos - length (a_cur a)) with 0 by lia. simpl. rewrite app_nil_r. auto.
Qed.

(** The room a program needs; a checkpoint needs room for one more node. *)
Definition ample (a : doc T) (n : nat) (w : N) (l : bool) : Prop :=
  (N.of_nat (a_n a + n) <= int_max F (fl_width F))%N /\ (a_cursor a + w <= ix_max F)%N /\
  (l = true -> (N.of_nat (a_n a + n) < int_max F (fl_width F))%N).
Definition within (a : doc T) : Prop := (N.of_nat (a_n a) <= int_max F (fl_width F))%N /\ (a_cursor a <= ix_max F)%N.
Definition kept (a a' : doc T) (l : bool) : Prop := (within a -> within a') /\ (l = true -> (N.of_nat (a_n a') < int_max F (fl_width F))%N).
Fixpoint needs p : nat :=
  match p with
  | PDone => 0 | PTok _ _ k => S (needs k) | PNode _ b k => S (needs b + needs k) | PMark b k => needs b + needs k | PWrap _ k => S (needs k)
  end.
Fixpoint text p : N :=
  match p with
  | PDone => 0 | PTok _ len k => len + text k | PNode _ b k => text b + text k | PMark b k => text b + text k | PWrap _ k => text k
  end%N.

Lemma adds_needs p : adds p = negb (needs p =? 0).
Proof. induction p as [|d len k IHk|d b IHb k IHk|b IHb k IHk|d k IHk]; simpl; auto. rewrite IHb, IHk. destruct (needs b), (needs k); auto. Qed.
Lemma full_false a n w l : ample a (S n) w l -> full F a = false.
Proof. unfold ample, full. intros [H _]. apply N.leb_gt. lia. Qed.
Lemma not_full a : full F a = false -> (N.of_nat (S (a_n a)) <= int_max F (fl_width F))%N.
Proof. unfold full. intros H. apply N.leb_gt in H. lia. Qed.
Lemma kept_trans a a1 a' l : (within a -> within a1) -> kept a1 a' l -> kept a a' l.
Proof. unfold kept. tauto. Qed.

Lemma program_doc p : forall pos c0 acc a (mk : bool) c, stage pos c0 acc a ->
  (mk = true -> nth_error (a_marks a) c = Some (MAt (level (a_open a)) pos)) -> scoped mk p ->
  let r := a_try F a (program_calls (length (a_marks a)) c p) in
  (r = Some (Err Overflow) \/ exists a', r = Some (Ok a') /\
     stage pos c0 (program_trees acc p) a' /\ moved pos a a' /\ length (a_marks a') = length (a_marks a) + marks p /\
     a_n a' = a_n a + needs p /\ a_cursor a' = (a_cursor a + text p)%N /\ kept a a' (late p)) /\
  (ample a (needs p) (text p) (late p) -> r <> Some (Err Overflow)).
Proof.
  induction p as [|d len k IHk|d b IHb k IHk|b IHb k IHk|d k IHk]; intros pos c0 acc a mk c Hst Hmk Hsc; cbn [program_calls scoped program_trees marks needs text late] in *.
  - simpl. split; [|discriminate]. right. exists a. split; auto. split; auto. split; [|unfold kept; split; [lia|]; split; [lia|]; split; [lia|]; split; [auto|discriminate]].
    destruct Hst. constructor; auto. symmetry. apply touch_snug; auto.
  - (* token *)
    cbn [a_try a_step]. unfold a_token. rewrite (Layout.checked_add F HE).
    assert (Hle : len_is_empty F len = (len =? 0)%N) by (unfold len_is_empty; destruct (fl_index F); congruence). rewrite Hle.
    assert (K : forall a1, stage pos c0 (acc ++ [GTok d len]) a1 -> moved pos a a1 -> a_marks a1 = a_marks a ->
       a_n a1 = S (a_n a) -> a_cursor a1 = (a_cursor a + len)%N -> full F a = false -> (within a -> a_cursor a + len <= ix_max F)%N ->
       let r := a_try F a1 (program_calls (length (a_marks a)) c k) in
       (r = Some (Err Overflow) \/ exists a', r = Some (Ok a') /\
          stage pos c0 (program_trees (acc ++ [GTok d len]) k) a' /\ moved pos a a' /\ length (a_marks a') = length (a_marks a) + marks k /\
          a_n a' = a_n a + S (needs k) /\ a_cursor a' = (a_cursor a + (len + text k))%N /\ kept a a' (late k)) /\
       (ample a (S (needs k)) (len + text k) (late k) -> r <> Some (Err Overflow))).
    { intros a1 S1 M1 E1 E2 E3 E5 E6. destruct (IHk pos c0 (acc ++ [GTok d len]) a1 mk c S1) as [I1 I2]; auto.
      { intros Hm. rewrite E1, (mv_open _ _ _ M1), level_touch. auto. }
      rewrite E1 in I1, I2. split.
      - destruct I1 as [I1|(a' & I1 & I3 & I4 & I5 & I6 & I7 & I8)]; [left; auto|right]. exists a'. split; [auto|]. split; [auto|].
        split; [eapply moved_trans; eauto|]. split; [auto|]. split; [lia|]. split; [rewrite I7, E3; lia|].
        apply (kept_trans a a1); auto. intros HW. split; [rewrite E2; apply not_full; auto|]. rewrite E3. auto.
      - intros HA. apply I2. unfold ample in *. rewrite E2, E3. destruct HA as (HA1 & HA2 & HA3). split; [lia|]. split; [lia|]. intros L. specialize (HA3 L). lia. }
    destruct (len =? 0)%N eqn:El.
    + apply N.eqb_eq in El. destruct (full F a) eqn:Ef.
      * split; [left; auto|]. intros HA. rewrite (full_false _ _ _ _ HA) in Ef. discriminate.
      * destruct (add_one pos c0 acc a (Nd (a_n a) KLeaf d (Span (a_cursor a) (a_cursor a)) []) (GTok d len) (a_cursor a) false Hst) as [S1 M1].
        { subst len. simpl. rewrite N.add_0_r. auto. } { subst len. simpl. lia. }
        apply (K (a_leaf d (Span (a_cursor a) (a_cursor a)) a)); auto; [subst len; simpl; lia|]. intros [_ W]. subst len. lia.
    + destruct (N.leb_spec (a_cursor a + len) (ix_max F)) as [Hc|Hc].
      * destruct (full F a) eqn:Ef.
        { split; [left; auto|]. intros HA. rewrite (full_false _ _ _ _ HA) in Ef. discriminate. }
        destruct (add_one pos c0 acc a (Nd (a_n a) KLeaf d (Span (a_cursor a) (a_cursor a + len)) []) (GTok d len) (a_cursor a + len) true Hst) as [S1 M1]; auto.
        set (a1 := push_index _ _ _ _).
        apply (K a1); auto.
        -- destruct S1. constructor; auto.
        -- destruct M1. constructor; auto.
      * split; [left; auto|]. intros (_ & HA & _). lia.
  - (* open body close *)
    destruct Hsc as [Hb Hk]. cbn [a_try a_step]. unfold a_open_with. destruct (full F a) eqn:Ef.
    { split; [left; auto|]. intros HA. rewrite (full_false _ _ _ _ HA) in Ef. discriminate. }
    set (a0 := Doc _ _ _ _ _ _ _). rewrite a_try_app.
    assert (St0 : stage 0 (a_cursor a) [] a0).
    { constructor; subst a0; simpl; auto; try lia.
      - unfold snug. simpl. split; auto. lia.
      - destruct (st_fresh _ _ _ _ Hst) as [G1 G2]. split; simpl.
        + intros f [<-|Hf]; simpl; [lia|]. apply in_touch in Hf as (f' & Hf & ->). specialize (G1 f' Hf). lia.
        + intros m i Hm Hi. specialize (G2 m i Hm Hi). lia. }
    destruct (IHb 0 (a_cursor a) [] a0 false c St0) as [I1 I2]; auto; try discriminate.
    change (length (a_marks a0)) with (length (a_marks a)) in I1, I2.
    destruct (a_try F a0 (program_calls (length (a_marks a)) c b)) as [[a1|e|]|] eqn:Eb.
    2:{ split; [left; destruct I1 as [I1|(? & I1 & _)]; congruence|]. intros (HA1 & HA2 & HA3) G. apply I2; auto. unfold ample, a0 in *. simpl. split; [lia|]. split; [lia|].
        intros L. rewrite L, adds_needs, Bool.negb_involutive in HA3. destruct (Nat.eqb_spec (needs k) 0) as [Z|Z]; [|lia].
        rewrite Bool.orb_true_r in HA3. specialize (HA3 eq_refl). lia. }
    2:{ split; [destruct I1 as [I1|(? & I1 & _)]; congruence|]. intros HA G. congruence. }
    2:{ split; [destruct I1 as [I1|(? & I1 & _)]; congruence|]. intros HA G. congruence. }
    destruct I1 as [I1|(a1' & I1 & S1 & M1 & L1 & N1 & T1 & K1)]; [discriminate|]. injection I1 as <-. clear I2.
    cbn [a_try a_step]. unfold a_close. set (c1 := a_cursor a1) in *.
    assert (Eop : a_open a1 = touch c1 (a_open a0)) by apply (mv_open _ _ _ M1). unfold a0 in Eop. cbn [a_open touch] in Eop.
    rewrite Eop. cbn [f_id f_data f_span f_left].
    assert (Ec1 : c1 = (a_cursor a + widths (program_trees [] b))%N) by apply (st_cursor _ _ _ _ S1).
    assert (Elay : map erase (a_cur a1) = lay_list (a_cursor a) (program_trees [] b)) by apply (st_lay _ _ _ _ S1).
    cbn [set_end span_point s_start s_end].
    assert (Ewid : widen (Span (a_cursor a) c1) (touch (a_cursor a) (a_open a)) = touch c1 (a_open a)).
    { pose proof (st_snug _ _ _ _ Hst) as G. unfold snug in G. destruct (a_open a) as [|[i df [s e] lf] fs]; auto. simpl in *.
      destruct G as [G1 G2]. unfold set_end, span_join. simpl. f_equal. f_equal. f_equal; lia. }
    change (set_end (span_point (a_cursor a)) c1) with (Span (a_cursor a) c1). change (s_end (span_point (a_cursor a))) with (a_cursor a). rewrite Ewid.
    set (a2 := Doc _ _ _ _ _ _ _).
    assert (S2 : stage pos c0 (acc ++ [GNode d (program_trees [] b)]) a2 /\ moved pos a a2).
    { destruct (add_one pos c0 acc a (Nd (a_n a) KOpen d (Span (a_cursor a) c1) (a_cur a1)) (GNode d (program_trees [] b)) c1 false Hst) as [S2 M2].
      - rewrite lay_node. simpl. rewrite Elay, Ec1. auto.
      - rewrite width_node. auto.
      - assert (Hn : a_n a1 = S (a_n a) + needs b) by (rewrite N1; auto). split.
        + destruct S2 as [X1 X2 X3 X4 [X5 X6]]. constructor; auto. subst a2. split; simpl.
          * intros f Hf. specialize (X5 f Hf). simpl in X5. lia.
          * pose proof (st_fresh _ _ _ _ S1) as [_ Y]. auto.
        + destruct M2 as [X1 X2 X3 X4]. constructor; auto.
          * subst a2; simpl. intros j m Hm Hq. apply (mv_marks _ _ _ M1); auto. subst a0. simpl. intros l q E1 E2. exfalso.
            apply nth_error_In in Hm. subst m l. pose proof (st_fresh _ _ _ _ Hst) as [_ Y]. specialize (Y _ (a_n a) Hm eq_refl). lia.
          * subst a2; simpl in *. lia. }
    destruct S2 as [S2 M2].
    assert (Lm : length (a_marks a2) = length (a_marks a) + marks b) by (subst a2; simpl; auto).
    destruct (IHk pos c0 (acc ++ [GNode d (program_trees [] b)]) a2 mk c S2) as [J1 J2]; auto.
    { intros Hm. rewrite (mv_open _ _ _ M2), level_touch. apply (mv_marks _ _ _ M2); auto. intros l q E _. injection E; intros; lia. }
    rewrite Lm in J1, J2.
    assert (Nn : a_n a2 = S (a_n a) + needs b) by (subst a2; simpl; rewrite N1; subst a0; auto).
    assert (Cc : a_cursor a2 = (a_cursor a + text b)%N) by (subst a2; simpl; exact T1).
    split.
    + destruct J1 as [J1|(a' & J1 & J3 & J4 & J5 & J6 & J7 & J8)]; [left; auto|right]. exists a'. split; [auto|]. split; [auto|].
      split; [eapply moved_trans; eauto|]. split; [lia|]. split; [lia|]. split; [rewrite J7, Cc; lia|].
      destruct K1 as [K1 K2], J8 as [J8 J9].
      assert (W0 : within a -> within a0). { intros [W1 W2]. split; subst a0; simpl; [apply not_full; auto|auto]. }
      assert (W1 : within a1 -> within a2). { intros [X1 X2]. split; [rewrite Nn; rewrite N1 in X1; exact X1|]. rewrite Cc. unfold c1 in T1. rewrite T1 in X2. exact X2. }
      split; [auto|]. intros L. apply Bool.orb_true_iff in L as [L|L]; [auto|]. apply andb_prop in L as [L1' L2]. specialize (K2 L1').
      rewrite adds_needs, Bool.negb_involutive in L2. apply Nat.eqb_eq in L2. rewrite J6, L2, Nn. rewrite N1 in K2. subst a0. simpl in K2. rewrite Nat.add_0_r. exact K2.
    + intros (HA1 & HA2 & HA3). apply J2. unfold ample in *. rewrite Nn, Cc. split; [lia|]. split; [lia|]. intros L. rewrite L in HA3. specialize (HA3 eq_refl). lia.
  - (* checkpoint *)
    destruct Hsc as [Hb Hk]. cbn [a_try a_step]. unfold a_checkpoint. destruct (full F a) eqn:Ef.
    { split; [left; auto|]. intros (HA1 & _ & HA3). exfalso. unfold full in Ef. apply N.leb_le in Ef. rewrite !adds_needs, !Bool.negb_involutive in HA3.
      destruct (Nat.eqb_spec (needs b) 0); [|lia]. destruct (Nat.eqb_spec (needs k) 0); [|lia]. rewrite !Bool.orb_true_r in HA3. specialize (HA3 eq_refl). lia. }
    set (a0 := Doc _ _ _ _ _ _ _). rewrite a_try_app.
    assert (St0 : stage (length (a_cur a)) (a_cursor a) [] a0).
    { constructor; subst a0; simpl; auto; try lia.
      - rewrite skipn_all. auto.
      - apply (st_snug _ _ _ _ Hst).
      - destruct (st_fresh _ _ _ _ Hst) as [G1 G2]. split; simpl; auto.
        intros m i Hm Hi. apply in_app_iff in Hm as [Hm|[<-|[]]]; [eauto|]. simpl in Hi.
        unfold level in Hi. destruct (a_open a) as [|f fs]; [discriminate|]. injection Hi as <-. apply G1. simpl; auto. }
    assert (L0 : length (a_marks a0) = S (length (a_marks a))) by (subst a0; simpl; rewrite app_length; simpl; lia).
    destruct (IHb (length (a_cur a)) (a_cursor a) [] a0 true (length (a_marks a)) St0) as [I1 I2]; auto.
    { intros _. subst a0. simpl. rewrite nth_error_app2, Nat.sub_diag by lia. auto. }
    rewrite L0 in I1, I2.
    destruct (a_try F a0 (program_calls (S (length (a_marks a))) (length (a_marks a)) b)) as [[a1|e|]|] eqn:Eb.
    2:{ split; [left; destruct I1 as [I1|(? & I1 & _)]; congruence|]. intros (HA1 & HA2 & HA3) G. apply I2; auto. unfold ample, a0 in *. simpl. split; [lia|]. split; [lia|].
        intros L. rewrite L, (adds_needs k), Bool.negb_involutive in HA3. destruct (Nat.eqb_spec (needs k) 0) as [Z|Z]; [|lia].
        rewrite Bool.orb_true_r in HA3. specialize (HA3 eq_refl). lia. }
    2:{ split; [destruct I1 as [I1|(? & I1 & _)]; congruence|]. intros HA G. congruence. }
    2:{ split; [destruct I1 as [I1|(? & I1 & _)]; congruence|]. intros HA G. congruence. }
    destruct I1 as [I1|(a1' & I1 & S1 & M1 & L1 & N1 & T1 & K1)]; [discriminate|]. injection I1 as <-. clear I2.
    assert (M2 : moved pos a a1).
    { pose proof (st_pos _ _ _ _ Hst) as Hp. destruct (moved_weaken _ _ _ _ Hp M1) as [X1 X2 X3 X4]. constructor; auto.
      intros j m Hm Hq. apply X3; auto. subst a0; simpl. rewrite nth_error_app1; auto. apply nth_error_Some. congruence. }
    assert (S2 : stage pos c0 (acc ++ program_trees [] b) a1).
    { pose proof (st_pos _ _ _ _ Hst) as Hp. destruct S1 as [X1 X2 X3 X4 X5]. constructor; auto.
      - lia.
      - assert (E : skipn pos (a_cur a1) = skipn pos (a_cur a) ++ skipn (length (a_cur a)) (a_cur a1)).
        { pose proof (mv_before _ _ _ M1) as B. subst a0; simpl in B. rewrite firstn_all in B.
          rewrite <- (firstn_skipn (length (a_cur a)) (a_cur a1)) at 1. rewrite B, skipn_app.
          replace (pos - length (a_cur a)) with 0 by lia. auto. }
        rewrite E, map_app, X2, (st_lay _ _ _ _ Hst), lay_app. rewrite (st_cursor _ _ _ _ Hst). auto.
      - rewrite X3, widths_app, (st_cursor _ _ _ _ Hst). lia. }
    destruct (IHk pos c0 (acc ++ program_trees [] b) a1 mk c S2) as [J1 J2]; auto.
    { intros Hm. rewrite (mv_open _ _ _ M2), level_touch. apply (mv_marks _ _ _ M2); auto. intros l q E _. injection E; intros; lia. }
    replace (length (a_marks a1)) with (S (length (a_marks a)) + marks b) in J1, J2 by lia.
    assert (Nn : a_n a1 = a_n a + needs b) by (rewrite N1; subst a0; auto).
    assert (Cc : a_cursor a1 = (a_cursor a + text b)%N) by (rewrite T1; subst a0; auto).
    split.
    + destruct J1 as [J1|(a' & J1 & J3 & J4 & J5 & J6 & J7 & J8)]; [left; auto|right]. exists a'. split; [auto|]. split; [auto|].
      split; [eapply moved_trans; eauto|]. split; [lia|]. split; [lia|]. split; [rewrite J7, Cc; lia|].
      destruct K1 as [K1 K2], J8 as [J8 J9].
      assert (W0 : within a -> within a0) by (intros [W1 W2]; split; auto).
      split; [auto|]. intros L. apply Bool.orb_true_iff in L as [L|L]; [auto|]. apply andb_prop in L as [L1' L2].
      rewrite adds_needs, Bool.negb_involutive in L2. apply Nat.eqb_eq in L2. apply Bool.orb_true_iff in L1' as [L1'|L1']; [specialize (K2 L1')|].
      * rewrite J6, L2, Nat.add_0_r. exact K2.
      * rewrite adds_needs, Bool.negb_involutive in L1'. apply Nat.eqb_eq in L1'. rewrite J6, L2, Nn, L1', !Nat.add_0_r. pose proof (not_full _ Ef). lia.
    + intros (HA1 & HA2 & HA3). apply J2. unfold ample in *. rewrite Nn, Cc. split; [lia|]. split; [lia|]. intros L. rewrite L in HA3. specialize (HA3 eq_refl). lia.
  - (* close_at *)
    destruct Hsc as [-> Hk]. specialize (Hmk eq_refl). cbn [a_try a_step]. unfold a_close_at. rewrite Hmk. cbn [mark_level].
    assert (Eo : opt_nat_eqb (level (a_open a)) (level (a_open a)) = true) by (unfold opt_nat_eqb; destruct (level (a_open a)); auto; apply Nat.eqb_refl).
    rewrite Eo. cbn [negb]. destruct (full F a) eqn:Ef.
    { split; [left; auto|]. intros HA. rewrite (full_false _ _ _ _ HA) in Ef. discriminate. }
    assert (K : forall a1, stage pos c0 [GNode d acc] a1 -> moved pos a a1 -> length (a_marks a1) = length (a_marks a) ->
       nth_error (a_marks a1) c = Some (MAt (level (a_open a)) pos) ->
       a_n a1 = S (a_n a) -> a_cursor a1 = a_cursor a ->
       let r := a_try F a1 (program_calls (length (a_marks a)) c k) in
       (r = Some (Err Overflow) \/ exists a', r = Some (Ok a') /\
          stage pos c0 (program_trees [GNode d acc] k) a' /\ moved pos a a' /\ length (a_marks a') = length (a_marks a) + marks k /\
          a_n a' = a_n a + S (needs k) /\ a_cursor a' = (a_cursor a + text k)%N /\ kept a a' (late k)) /\
       (ample a (S (needs k)) (text k) (late k) -> r <> Some (Err Overflow))).
    { intros a1 S1 M1 E1 E4 E2 E3. destruct (IHk pos c0 [GNode d acc] a1 true c S1) as [I1 I2]; auto.
      { intros _. rewrite E4, (mv_open _ _ _ M1), level_touch. auto. }
      rewrite E1 in I1, I2. split.
      - destruct I1 as [I1|(a' & I1 & I3 & I4 & I5 & I6 & I7 & I8)]; [left; auto|right]. exists a'. split; [auto|]. split; [auto|].
        split; [eapply moved_trans; eauto|]. split; [auto|]. split; [lia|]. split; [rewrite I7, E3; lia|].
        apply (kept_trans a a1); auto. intros [W1 W2]. split; [rewrite E2; apply not_full; auto|]. rewrite E3. auto.
      - intros (HA1 & HA2 & HA3). apply I2. unfold ample in *. rewrite E2, E3. split; [lia|]. split; [lia|]. intros L. specialize (HA3 L). lia. }
    pose proof Hst as [P1 P2 P3 P4 P5].
    destruct (skipn pos (a_cur a)) as [|x w] eqn:Es.
    + assert (acc = []) by (destruct acc; [auto|discriminate]). subst acc. unfold widths in P3; simpl in P3. rewrite N.add_0_r in P3.
      assert (Hlen : length (a_cur a) = pos).
      { pose proof (f_equal (@length _) Es) as G. rewrite skipn_length in G. simpl in G. lia. }
      destruct (add_one pos c0 [] a (Nd (a_n a) KLeaf d (Span (a_cursor a) (a_cursor a)) []) (GNode d []) (a_cursor a) false Hst) as [S1 M1].
      { simpl. rewrite N.add_0_r. auto. } { simpl. lia. }
      apply (K (a_leaf d (span_point (a_cursor a)) a)); auto.
    + set (a1 := Doc _ _ _ _ _ _ _).
      assert (Er : run_span x w = Span c0 (c0 + widths acc)) by (apply lay_run; auto).
      assert (Sw : forall j m, nth_error (a_marks a) j = Some m -> (forall l q, m = MAt l q -> l = level (a_open a) -> q <= pos) ->
         nth_error (map (swallow (level (a_open a)) pos) (a_marks a)) j = Some m).
      { intros j m Hm Hq. rewrite nth_error_map, Hm. simpl. f_equal. destruct m as [l q|l]; auto. simpl.
        destruct (opt_nat_eqb l (level (a_open a))) eqn:El; auto. simpl.
        assert (l = level (a_open a)).
        { clear -El. unfold opt_nat_eqb in El. destruct l, (level (a_open a)); try discriminate; auto. apply Nat.eqb_eq in El. congruence. }
        specialize (Hq l q eq_refl H). destruct (Nat.ltb_spec pos q); auto. lia. }
      apply (K a1); auto.
      * constructor; subst a1; simpl; auto.
        -- rewrite app_length, firstn_length. simpl. lia.
        -- rewrite skipn_app, skipn_all2 by (rewrite firstn_length; lia). rewrite firstn_length.
           replace (pos - Nat.min pos (length (a_cur a))) with 0 by lia.
           cbn [skipn app map]. change (erase (Nd (a_n a) KWrap d (run_span x w) (x :: w))) with (Sh d (run_span x w) (map erase (x :: w))).
           rewrite P2, Er, <- lay_node. auto.
        -- rewrite N.add_0_r. exact P3.
        -- destruct P5 as [Q1 Q2]. split; simpl.
           ++ intros f Hf. specialize (Q1 f Hf). lia.
           ++ intros m i Hm Hi. apply in_map_iff in Hm as (m' & <- & Hm).
              assert (mark_level (swallow (level (a_open a)) pos m') = mark_level m') as E by (destruct m'; simpl; auto; destruct (_ && _); auto).
              rewrite E in Hi. specialize (Q2 m' i Hm Hi). lia.
      * constructor; subst a1; simpl; auto.
        -- rewrite firstn_app, firstn_firstn, firstn_length, Nat.min_id. replace (pos - Nat.min pos (length (a_cur a))) with 0 by lia.
           simpl. rewrite app_nil_r. auto.
        -- symmetry. apply touch_snug; auto.
      * subst a1; simpl. rewrite map_length. auto.
      * subst a1; simpl. apply Sw; auto. intros l q E _. injection E; intros; lia.
Qed.

(** What a program needs is what its trees hold. *)
Lemma program_size p : forall acc, sizes (program_trees acc p) = sizes acc + needs p /\ widths (program_trees acc p) = (widths acc + text p)%N.
Proof.
  induction p as [|d len k IHk|d b IHb k IHk|b IHb k IHk|d k IHk]; intros acc; simpl; [split; lia|..].
  - destruct (IHk (acc ++ [GTok d len])) as [-> ->]. rewrite sizes_app, widths_app. unfold sizes at 2, widths at 2. simpl. lia.
  - destruct (IHk (acc ++ [GNode d (program_trees [] b)])) as [-> ->]. destruct (IHb []) as [E1 E2]. rewrite sizes_app, widths_app.
    unfold sizes at 2, widths at 2. cbn [fold_right]. rewrite size_node, width_node, E1, E2. unfold sizes, widths. simpl. lia.
  - destruct (IHk (acc ++ program_trees [] b)) as [-> ->]. destruct (IHb []) as [E1 E2]. rewrite sizes_app, widths_app, E1, E2. unfold sizes, widths; simpl. lia.
  - destruct (IHk [GNode d acc]) as [-> ->]. unfold sizes at 1, widths at 1. cbn [fold_right]. rewrite size_node, width_node. lia.
Qed.
End Program.

(** All calls of a program with [?] after each, then [build]. *)
Definition build_try {T} (F : flavor) (ops : list (op T)) : result (tree T) :=
  match run_try F world_new ops with
  | Ok w => build (w_builder w)
  | Err e => Err e
  | Diverge => Diverge
  end.

(** A structured program ends with the tree it stands for, laid out over the text without gaps, or
    with Overflow; not the latter if there is room for its nodes (and one more) and its text. *)
Theorem C48_structured : forall T F (p : prog T), vec_flavor F -> fl_index F <> IxEmpty -> scoped false p ->
  let ops := program_calls 0 0 p in
  let gs := program_trees [] p in
  (build_try F ops = Err Overflow \/
   exists t l, build_try F ops = Ok t /\ builds F ops t /\ document F ops l /\ map erase l = lay_list 0 gs /\ tree_len t = sizes gs) /\
  ((N.of_nat (sizes gs) < int_max F (fl_width F))%N -> (widths gs <= ix_max F)%N -> build_try F ops <> Err Overflow).
Proof.
  intros T F p HF HE Hp ops gs. unfold build_try.
  assert (St : @stage T 0 0 [] doc_new).
  { constructor; simpl; auto. - exact I. - split; simpl; tauto. }
  destruct (program_doc F HE p 0 0%N [] doc_new false 0 St) as [H1 H2]; auto; try discriminate.
  change (length (a_marks doc_new)) with 0 in *. fold ops in H1, H2. destruct (program_size p []) as [Z1 Z2]. fold gs in Z1, Z2, H1.
  unfold sizes at 2 in Z1. unfold widths at 2 in Z2. simpl in Z1, Z2.
  destruct H1 as [E|(a & E & [S1 S2 S3 S4 S5] & M & _ & Hn & _ & _)].
  - pose proof (try_refines F HF _ _ _ _ R_new E) as G. simpl in G. rewrite G. split; [left; auto|].
    intros A1 A2. exfalso. apply H2; auto. unfold ample. simpl. rewrite <- Z1, <- Z2. split; [lia|]. auto.
  - destruct (try_refines F HF _ _ _ _ R_new E) as (w & rs & E1 & HR & E2 & E3). rewrite E1.
    pose proof (mv_open _ _ _ M) as Eo. simpl in Eo.
    assert (Hb : build (w_builder w) = Ok (b_tree (w_builder w))).
    { unfold build. rewrite (br_parent _ _ (r_builder _ _ HR)), Eo. auto. }
    split; [|intros; congruence]. right. exists (b_tree (w_builder w)), (a_cur a). split; auto. split; [|split; [|split]].
    + unfold builds, run_world. rewrite E2. auto.
    + exists a, rs. auto.
    + exact S2.
    + unfold tree_len. rewrite (br_len _ _ (r_builder _ _ HR)). simpl in Hn. lia.
Qed.
Print Assumptions C48_structured.

(** Exactly when there is Overflow: more nodes than the width allows, more text than the index type holds, or as many nodes as
    allowed and a checkpoint after the last of them. *)
Theorem C48_exact : forall T F (p : prog T), vec_flavor F -> fl_index F <> IxEmpty -> scoped false p ->
  let gs := program_trees [] p in
  build_try F (program_calls 0 0 p) = Err Overflow <->
  (int_max F (fl_width F) < N.of_nat (sizes gs) \/ ix_max F < widths gs \/ N.of_nat (sizes gs) = int_max F (fl_width F) /\ late p = true)%N.
Proof.
  intros T F p HF HE Hp gs. unfold build_try. set (ops := program_calls 0 0 p).
  assert (St : @stage T 0 0 [] doc_new).
  { constructor; simpl; auto. - exact I. - split; simpl; tauto. }
  destruct (program_doc F HE p 0 0%N [] doc_new false 0 St) as [H1 H2]; auto; try discriminate.
  change (length (a_marks doc_new)) with 0 in *. fold ops in H1, H2. destruct (program_size p []) as [Z1 Z2]. fold gs in Z1, Z2, H1.
  unfold sizes at 2 in Z1. unfold widths at 2 in Z2. simpl in Z1, Z2.
  destruct H1 as [E|(a & E & _ & M & _ & Hn & Hc & [K1 K2])].
  - pose proof (try_refines F HF _ _ _ _ R_new E) as G. simpl in G. rewrite G. split; [intros _|auto].
    destruct (N.ltb_spec (int_max F (fl_width F)) (N.of_nat (sizes gs))) as [L|L]; [auto|]. destruct (N.ltb_spec (ix_max F) (widths gs)) as [L'|L']; [auto|].
    right. right. destruct (late p) eqn:El.
    + split; auto. destruct (N.eq_dec (N.of_nat (sizes gs)) (int_max F (fl_width F))); auto. exfalso. apply H2; auto.
      unfold ample. simpl. rewrite <- Z1, <- Z2. split; [lia|]. split; [lia|]. intros _. lia.
    + exfalso. apply H2; auto. unfold ample. simpl. rewrite <- Z1, <- Z2. split; [lia|]. split; [lia|]. discriminate.
  - destruct (try_refines F HF _ _ _ _ R_new E) as (w & rs & E1 & HR & _). rewrite E1.
    pose proof (mv_open _ _ _ M) as Eo. simpl in Eo. unfold build. rewrite (br_parent _ _ (r_builder _ _ HR)), Eo. cbn [level touch]. split; [discriminate|].
    destruct K1 as [W1 W2]; [split; simpl; lia|]. simpl in Hn, Hc. rewrite Hn, <- Z1 in W1. rewrite Hc in W2. replace (0 + text p)%N with (text p) in W2 by lia. rewrite <- Z2 in W2.
    intros [L|[L|[L1 L2]]]; [lia..|]. specialize (K2 L2). rewrite Hn, <- Z1 in K2. lia.
Qed.
Print Assumptions C48_exact.

(** ** Flavors with [Empty] indexes *)
Section Mute.
Context {T : Type}.
Implicit Types (p : prog T) (g : gtree T).
Fixpoint mute p : prog T :=
  match p with
  | PDone => PDone
  | PTok d _ k => PTok d 0 (mute k)
  | PNode d b k => PNode d (mute b) (mute k)
  | PMark b k => PMark (mute b) (mute k)
  | PWrap d k => PWrap d (mute k)
  end.
Definition mute_op (o : op T) : op T := match o with OToken d _ => OToken d 0 | o => o end.
Lemma mute_marks p : marks (mute p) = marks p. Proof. induction p; simpl; auto. Qed.
Lemma mute_adds p : adds (mute p) = adds p. Proof. induction p; simpl; auto. congruence. Qed.
Lemma mute_late p : late (mute p) = late p.
Proof. induction p; simpl; auto; rewrite ?mute_adds; congruence. Qed.
Lemma mute_scoped p : forall m, scoped m p -> scoped m (mute p).
Proof. induction p; intros m; simpl; intuition. Qed.
Lemma mute_calls p : forall n c, program_calls n c (mute p) = map mute_op (program_calls n c p).
Proof.
  induction p as [|d len k IHk|d b IHb k IHk|b IHb k IHk|d k IHk]; intros n c; simpl; auto; rewrite ?map_app; simpl; rewrite ?mute_marks; congruence.
Qed.
Lemma mute_trees p : forall acc, program_trees (map silent acc) (mute p) = map silent (program_trees acc p).
Proof.
  induction p as [|d len k IHk|d b IHb k IHk|b IHb k IHk|d k IHk]; intros acc; simpl; auto.
  - rewrite <- IHk, map_app. auto.
  - specialize (IHb []). simpl in IHb. rewrite <- IHk, map_app, IHb. auto.
  - specialize (IHb []). simpl in IHb. rewrite <- IHk, map_app, IHb. auto.
  - rewrite <- IHk. auto.
Qed.
Lemma gtree_ind' (P : gtree T -> Prop) : (forall d len, P (GTok d len)) -> (forall d kids, Forall P kids -> P (GNode d kids)) -> forall g, P g.
Proof. intros H1 H2. fix IH 1. intros [d len|d kids]; [apply H1|apply H2]. induction kids; constructor; auto. Qed.
Lemma silent_size g : size (silent g) = size g.
Proof. induction g as [d len|d kids IH] using gtree_ind'; simpl; auto. f_equal. induction IH; simpl; congruence. Qed.
Lemma silent_width g : width (silent g) = 0%N.
Proof. induction g as [d len|d kids IH] using gtree_ind'; simpl; auto. induction IH as [|g kids Hg Hk IH]; simpl; auto. rewrite Hg, IH. auto. Qed.
Lemma silent_sizes (gs : list (gtree T)) : sizes (map silent gs) = sizes gs.
Proof. unfold sizes. induction gs; simpl; auto. rewrite silent_size. congruence. Qed.
Lemma silent_widths (gs : list (gtree T)) : widths (map silent gs) = 0%N.
Proof. unfold widths. induction gs; simpl; auto. rewrite silent_width, IHgs. auto. Qed.

(** The same flavor with usize indexes. *)
Definition audible (F : flavor) : flavor := Flavor (fl_usize_max F) IxUsize (fl_width F) (fl_storage F) (fl_indexes F).
Definition structured (o : op T) : Prop := match o with OToken _ _ | OOpen _ | OClose | OCheckpoint | OCloseAt _ _ => True | _ => False end.
Lemma calls_structured p : forall n c, Forall structured (program_calls n c p).
Proof.
  induction p as [|d len k IHk|d b IHb k IHk|b IHb k IHk|d k IHk]; intros n c; simpl; try constructor; simpl; auto; apply Forall_app; split; auto. constructor; simpl; auto.
Qed.
Lemma mute_step F (w : world T) o : fl_index F = IxEmpty -> structured o -> step F w o = step (audible F) w (mute_op o).
Proof.
  intros HE Ho. destruct F as [u ix wd st xs]. simpl in HE. subst ix. destruct o; destruct Ho; reflexivity.
Qed.
Lemma mute_try F (ops : list (op T)) : fl_index F = IxEmpty -> Forall structured ops -> forall w, run_try F w ops = run_try (audible F) w (map mute_op ops).
Proof.
  intros HE. induction 1 as [|o ops Ho Hs IH]; intros w; simpl; auto. rewrite <- mute_step by auto. destruct (step F w o) as [w1 r]. destruct r; auto.
Qed.
Lemma mute_run F (ops : list (op T)) : fl_index F = IxEmpty -> Forall structured ops -> forall w, run F w ops = run (audible F) w (map mute_op ops).
Proof.
  intros HE. induction 1 as [|o ops Ho Hs IH]; intros w; simpl; auto. rewrite <- mute_step by auto. destruct (step F w o) as [w1 r]. rewrite IH. auto.
Qed.
Lemma mute_doc F (ops : list (op T)) : fl_index F = IxEmpty -> Forall structured ops -> forall a, a_run F a ops = a_run (audible F) a (map mute_op ops).
Proof.
  intros HE. destruct F as [u ix wd st xs]. simpl in HE. subst ix. induction 1 as [|o ops Ho Hs IH]; intros a; simpl; auto.
  assert (E : a_step (Flavor u IxEmpty wd st xs) a o = a_step (audible (Flavor u IxEmpty wd st xs)) a (mute_op o)) by (destruct o; destruct Ho; reflexivity).
  rewrite <- E. destruct (a_step _ a o) as [[a1 r]|]; auto. rewrite IH. auto.
Qed.
End Mute.

(** In every flavor: exactly when a structured program ends with Overflow, and what its tree is when it does not.  With [Empty] indexes the text
    has no length, and only the nodes are counted. *)
Theorem C48_any : forall T F (p : prog T), vec_flavor F -> scoped false p ->
  let ops := program_calls 0 0 p in
  let gs := measured F (program_trees [] p) in
  (build_try F ops = Err Overflow <->
   (int_max F (fl_width F) < N.of_nat (sizes gs) \/ ix_max F < widths gs \/ N.of_nat (sizes gs) = int_max F (fl_width F) /\ late p = true)%N) /\
  (build_try F ops <> Err Overflow ->
   exists t l, build_try F ops = Ok t /\ builds F ops t /\ document F ops l /\ map erase l = lay_list 0 gs /\ tree_len t = sizes gs).
Proof.
  intros T F p HF Hp ops gs.
  assert (G : forall F, vec_flavor F -> fl_index F <> IxEmpty -> forall p : prog T, scoped false p -> let ops := program_calls 0 0 p in let gs := program_trees [] p in
    (build_try F ops = Err Overflow <->
     (int_max F (fl_width F) < N.of_nat (sizes gs) \/ ix_max F < widths gs \/ N.of_nat (sizes gs) = int_max F (fl_width F) /\ late p = true)%N) /\
    (build_try F ops <> Err Overflow ->
     exists t l, build_try F ops = Ok t /\ builds F ops t /\ document F ops l /\ map erase l = lay_list 0 gs /\ tree_len t = sizes gs)).
  { clear. intros F HF HE p Hp ops gs. split; [apply C48_exact; auto|]. intros H. destruct (C48_structured T F p HF HE Hp) as [[X|X] _]; [contradiction|exact X]. }
  destruct (fl_index F) eqn:EI; [assert (gs = program_trees [] p) as -> by (subst gs; unfold measured; rewrite EI; auto); apply (G F); auto; congruence..|].
  assert (HF' : vec_flavor (audible F)) by exact HF.
  destruct (G (audible F) HF' ltac:(discriminate) (mute p) (mute_scoped p _ Hp)) as [G1 G2].
  pose proof (mute_trees p []) as Et. simpl in Et. cbv zeta in G1, G2. rewrite Et, mute_late in G1. rewrite Et in G2.
  rewrite mute_calls in G1, G2. fold ops in G1, G2. assert (Hs : Forall structured ops) by apply calls_structured.
  assert (Eb : build_try F ops = build_try (audible F) (map mute_op ops)) by (unfold build_try; rewrite <- mute_try by auto; auto).
  assert (Eg : gs = map silent (program_trees [] p)) by (subst gs; unfold measured; rewrite EI; auto).
  rewrite <- Eb, <- Eg in G1. rewrite <- Eb, <- Eg in G2. change (int_max (audible F) (fl_width (audible F))) with (int_max F (fl_width F)) in G1. split.
  - rewrite G1. rewrite Eg, silent_widths. split; (intros [X|[X|X]]; [auto|lia|auto]).
  - intros H. destruct (G2 H) as (t & l & A & B & (a & rs & C & D & E0) & E & L). exists t, l. split; auto. split; [|split; [|auto]].
    + unfold builds, run_world in *. rewrite mute_run by auto. exact B.
    + exists a, rs. split; [|auto]. unfold describes. rewrite mute_doc by auto. exact C.
Qed.
Print Assumptions C48_any.

(** [1 + 2 * 3 - 4] as in examples/math.rs: nested checkpoints, one of them closed twice. *)
Definition demo_prog : prog nat :=
  PNode 100
    (PMark
       (PMark (PTok 1 1 PDone)
       (PTok 10 1
       (PMark (PTok 2 1 (PTok 11 1 (PTok 3 1 (PWrap 50 PDone))))
       (PWrap 51
       (PTok 12 1
       (PMark (PTok 4 1 PDone)
       (PWrap 52 PDone)))))))
    PDone) PDone.
Example C48_inhabited : scoped false demo_prog /\
  program_trees [] demo_prog =
    [GNode 100 [GNode 52 [GNode 51 [GTok 1 1; GTok 10 1; GNode 50 [GTok 2 1; GTok 11 1; GTok 3 1]]; GTok 12 1; GTok 4 1]]] /\
  program_calls 0 0 demo_prog =
    [OOpen 100; OCheckpoint; OCheckpoint; OToken 1 1; OToken 10 1; OCheckpoint; OToken 2 1; OToken 11 1; OToken 3 1; OCloseAt 2 50;
     OCloseAt 0 51; OToken 12 1; OCheckpoint; OToken 4 1; OCloseAt 0 52; OClose]%nat /\
  (exists t, build_try flavor_default (program_calls 0 0 demo_prog) = Ok t) /\
  build_try (Flavor usize_max_32 IxUsize U8 SVec SVec) (program_calls 0 0 (PTok 1 usize_max_32 (PTok 1 1 PDone))) = Err Overflow.
Proof.
  split; [simpl; auto 20|]. split; [reflexivity|]. split; [reflexivity|]. split; [|vm_compute; reflexivity].
  vm_compute. eexists. reflexivity.
Qed.

(** The limit is met exactly: 255 nodes fit the width u8, a checkpoint after them does not; with [Empty] indexes lengths do not count. *)
Fixpoint many {T} (n : nat) (d : T) (k : prog T) : prog T := match n with O => k | S n => PTok d 1 (many n d k) end.
Example C48_exact_inhabited :
  (exists t, build_try (Flavor usize_max_64 IxU32 U8 SVec SVec) (program_calls 0 0 (many 254 1 (PNode 2 PDone PDone))) = Ok t) /\
  build_try (Flavor usize_max_64 IxU32 U8 SVec SVec) (program_calls 0 0 (many 255 1 (PNode 2 PDone PDone))) = Err Overflow /\
  build_try (Flavor usize_max_64 IxU32 U8 SVec SVec) (program_calls 0 0 (many 254 1 (PNode 2 (PMark PDone PDone) PDone))) = Err Overflow /\
  late (many 254 1 (PNode 2 (PMark PDone PDone) PDone)) = true /\ late (many 254 1 (PNode 2 (PMark PDone PDone) (PTok 1 1 PDone))) = false /\
  (exists t, build_try (Flavor usize_max_64 IxEmpty U8 SVec SEmptyVec) (program_calls 0 0 (PTok 1 usize_max_64 (many 5 1 PDone))) = Ok t).
Proof.
  split; [eexists; vm_compute; reflexivity|]. split; [vm_compute; reflexivity|]. split; [vm_compute; reflexivity|]. split; [reflexivity|]. split; [reflexivity|].
  eexists. vm_compute. reflexivity.
Qed.
