(** What each call does to the siblings, the open nodes and the checkpoints of a document. *)
From Coq Require Import Lia.
From Verif Require Import Base Pointer Index Tree Builder Hist Spec SpecMarks Rep Marks DocInv.

Section Place.
Context {T : Type}.
Variable F : flavor.
Implicit Types (a : doc T) (o : op T) (ops : list (op T)).

Definition same_frames (fs fs' : list (frame T)) : Prop :=
  map f_id fs = map f_id fs' /\ map f_left fs = map f_left fs'.
Lemma same_frames_refl fs : same_frames fs fs.
Proof. split; auto. Qed.
Lemma same_touch e fs : same_frames (touch e fs) fs.
Proof. destruct fs; split; auto. Qed.
Lemma same_widen e fs : same_frames (widen e fs) fs.
Proof. destruct fs; split; auto. Qed.
Lemma same_widen_touch sp e fs : same_frames (widen sp (touch e fs)) fs.
Proof. destruct fs; split; auto. Qed.
Lemma same_level fs fs' : same_frames fs fs' -> level fs = level fs'.
Proof. intros [H _]. apply level_map; auto. Qed.

Inductive shape a : op T -> doc T -> out -> Prop :=
| sh_same o a' r : a_cur a' = a_cur a -> same_frames (a_open a') (a_open a) -> a_n a' = a_n a ->
    a_marks a' = a_marks a -> (forall i, r <> RNode i) -> r <> RCheckpoint -> shape a o a' r
| sh_open o d sp fs a' : op_value o = Some d -> a_cur a' = [] -> a_open a' = Frame (a_n a) d sp (a_cur a) :: fs ->
    same_frames fs (a_open a) -> a_n a' = S (a_n a) -> a_marks a' = a_marks a -> shape a o a' (RNode (a_n a))
| sh_close f fs fs' x a' : a_open a = f :: fs -> r_id x = f_id f -> r_kids x = a_cur a -> r_data x = f_data f ->
    a_cur a' = f_left f ++ [x] -> a_open a' = fs' -> same_frames fs' fs -> a_n a' = a_n a ->
    a_marks a' = a_marks a -> shape a OClose a' RUnit
| sh_leaf o d sp a' : op_value o = Some d -> a_cur a' = a_cur a ++ [Nd (a_n a) KLeaf d sp []] ->
    same_frames (a_open a') (a_open a) -> a_n a' = S (a_n a) -> a_marks a' = a_marks a ->
    (forall k, closes_at k o -> exists l pos, nth_error (a_marks a) k = Some (MAt l pos) /\ l = level (a_open a) /\
        length (a_cur a) <= pos) ->
    shape a o a' (RNode (a_n a))
| sh_mark a' : a_cur a' = a_cur a -> a_open a' = a_open a -> a_n a' = a_n a ->
    a_marks a' = a_marks a ++ [MAt (level (a_open a)) (length (a_cur a))] -> shape a OCheckpoint a' RCheckpoint
| sh_wrap o k d sp pos x w a' : closes_at k o -> op_value o = Some d ->
    nth_error (a_marks a) k = Some (MAt (level (a_open a)) pos) -> skipn pos (a_cur a) = x :: w ->
    a_cur a' = firstn pos (a_cur a) ++ [Nd (a_n a) KWrap d sp (x :: w)] -> a_open a' = a_open a ->
    a_n a' = S (a_n a) -> a_marks a' = map (swallow (level (a_open a)) pos) (a_marks a) ->
    shape a o a' (RNode (a_n a)).

Lemma a_step_shape a o a' r : a_step F a o = Some (a', r) -> shape a o a' r.
Proof.
  intros E. assert (SAME : forall e, (a, RErr e) = (a', r) -> shape a o a' r).
  { intros e X. injection X as <- <-. apply sh_same; auto; [apply same_frames_refl|congruence..]. }
  assert (Hclose : forall k d osp, (forall k', closes_at k' o <-> k' = k) -> op_value o = Some d ->
     a_close_at F k d osp a = Some (a', r) -> shape a o a' r).
  { intros k d osp Hk Hv E'. unfold a_close_at in E'.
    destruct (nth_error (a_marks a) k) as [m|] eqn:Em.
    2:{ injection E' as <- <-. apply sh_same; auto; [apply same_frames_refl|congruence..]. }
    destruct (opt_nat_eqb_spec (mark_level m) (level (a_open a))) as [Hl|Hl]; simpl negb in E'; cbv iota in E'.
    2:{ eapply SAME. injection E' as <- <-. reflexivity. }
    destruct (full F a). { eapply SAME. injection E' as <- <-. reflexivity. }
    destruct m as [lv pos|]; [|discriminate]. simpl in Hl. subst lv.
    destruct (skipn pos (a_cur a)) as [|x w] eqn:Es; injection E' as <- <-.
    - eapply sh_leaf; simpl; eauto; [apply same_touch|]. intros k' Hk'. apply Hk in Hk'. subst k'.
      exists (level (a_open a)), pos. split; auto. split; auto.
      pose proof (skipn_length pos (a_cur a)) as HL. rewrite Es in HL. simpl in HL. lia.
    - eapply sh_wrap; simpl; eauto. apply Hk. auto. }
  assert (Htok : forall d len, op_value o = Some d -> (forall k, ~ closes_at k o) -> a_token F d len a = (a', r) -> shape a o a' r).
  { intros d len Hv Hk E'. unfold a_token in E'. destruct (len_is_empty F len).
    - destruct (full F a); [eapply SAME; eauto|]. injection E' as <- <-.
      eapply sh_leaf; simpl; eauto; [apply same_touch|]. intros k Hc. destruct (Hk k Hc).
    - destruct (ix_checked_add_len F (a_cursor a) len); [|eapply SAME; eauto].
      destruct (full F a); injection E' as <- <-.
      + apply sh_same; simpl; auto; [apply same_frames_refl|congruence..].
      + eapply sh_leaf; simpl; eauto; [apply same_touch|]. intros k Hc. destruct (Hk k Hc). }
  destruct o; cbn [a_step] in E;
    try (eapply Hclose; [| |exact E]; [intros k'; simpl; split; intros; congruence|reflexivity]);
    try (injection E as E; eapply Htok; [reflexivity| |exact E]; simpl; tauto).
  - injection E as E. unfold a_open_with in E. destruct (full F a); [eapply SAME; eauto|]. injection E as <- <-.
    eapply sh_open; simpl; try reflexivity. apply same_touch.
  - injection E as E. unfold a_open_with in E. destruct (full F a); [eapply SAME; eauto|]. injection E as <- <-.
    eapply sh_open; simpl; try reflexivity. apply same_touch.
  - injection E as E. unfold a_close in E. destruct (a_open a) as [|f fs] eqn:Eo; [eapply SAME; eauto|]. injection E as <- <-.
    eapply sh_close; simpl; try reflexivity; eauto; try reflexivity; try apply same_widen.
  - injection E as E. unfold a_token_with in E. destruct (full F a); [eapply SAME; eauto|]. injection E as <- <-.
    eapply sh_leaf; simpl; try reflexivity; [apply same_widen_touch|]. tauto.
  - injection E as E. unfold a_checkpoint in E. destruct (full F a); [eapply SAME; eauto|]. injection E as <- <-.
    apply sh_mark; auto.
  - injection E as <- <-. apply sh_same; simpl; auto; [apply same_frames_refl|congruence..].
Qed.

(** ** The place a checkpoint denotes *)
(* [live]: checkpoint [j] exists already. *)
Variable (L : option nat) (base : list (rose T)) (j : nat) (live : Prop).

Fixpoint intact (cur : list (rose T)) (fs : list (frame T)) : Prop :=
  (level fs = L -> exists rest, cur = base ++ rest) /\
  match fs with [] => True | f :: fs => intact (f_left f) fs end.

Lemma intact_frames fs : forall fs' cur, same_frames fs' fs -> intact cur fs -> intact cur fs'.
Proof.
  induction fs as [|f fs IH]; intros [|f' fs'] cur [H1 H2] H; try discriminate; auto.
  simpl in H1, H2. injection H1 as E1 H1. injection H2 as E2 H2. simpl in *. destruct H as [A B].
  rewrite E1, E2. split; auto. apply IH; auto. split; auto.
Qed.

Record held a : Prop := {
  hd_mark : live -> nth_error (a_marks a) j = Some (MAt L (length base));
  hd_later : forall k q, j <= k -> nth_error (a_marks a) k = Some (MAt L q) -> length base <= q;
  hd_intact : intact (a_cur a) (a_open a);
  hd_lt : forall i, L = Some i -> i < a_n a;
}.

Lemma intact_head cur fs : intact cur fs -> level fs = L -> exists rest, cur = base ++ rest.
Proof. destruct fs; simpl; intros [H _]; auto. Qed.
Lemma intact_change cur cur' fs : intact cur fs -> (level fs = L -> exists rest, cur' = base ++ rest) -> intact cur' fs.
Proof. destruct fs; simpl; intros [H H'] G; split; auto. Qed.

Lemma held_step a o a' r : held a -> (forall k, closes_at k o -> j <= k) -> shape a o a' r -> held a'.
Proof.
  intros [H1 H2 H3 H4] Hj HS. destruct HS as
    [o a' r E1 E2 E3 E4 _ _|o d sp fs a' Ev E1 E2 E3 E4 E5|f fs fs' x a' E0 Ex _ _ E1 E2 E3 E4 E5
    |o d sp a' Ev E1 E2 E3 E4 _|a' E1 E2 E3 E4|o k d sp pos x w a' Ek Ev Em Es E1 E2 E3 E4].
  - constructor; rewrite ?E4; auto.
    + rewrite E1. eapply intact_frames; eauto.
    + rewrite E3. auto.
  - constructor; rewrite ?E5; auto.
    + rewrite E1, E2. simpl. split; [|eapply intact_frames; eauto]. intros El. exfalso.
      specialize (H4 _ (eq_sym El)). lia.
    + rewrite E4. intros i Hi. specialize (H4 i Hi). lia.
  - rewrite E0 in H3. simpl in H3. destruct H3 as [_ H3]. constructor; rewrite ?E5; auto.
    + rewrite E1, E2. eapply intact_frames; eauto. eapply intact_change; eauto. intros El.
      destruct (intact_head _ _ H3 El) as [rest ->]. exists (rest ++ [x]). rewrite app_assoc. auto.
    + rewrite E4. auto.
  - constructor; rewrite ?E4; auto.
    + rewrite E1. eapply intact_frames; eauto. eapply intact_change; eauto. intros El.
      destruct (intact_head _ _ H3 El) as [rest ->]. eexists. rewrite <- app_assoc. reflexivity.
    + rewrite E3. intros i Hi. specialize (H4 i Hi). lia.
  - constructor; rewrite ?E4.
    + intros Hv. specialize (H1 Hv). rewrite nth_error_app1; auto. apply nth_error_Some. congruence.
    + intros k q Hk Eq. destruct (Nat.lt_ge_cases k (length (a_marks a))).
      * rewrite nth_error_app1 in Eq by auto. eauto.
      * assert (k = length (a_marks a)) as ->.
        { assert (k < length (a_marks a ++ [MAt (level (a_open a)) (length (a_cur a))])) by (apply nth_error_Some; congruence).
          rewrite app_length in *; simpl in *; lia. }
        rewrite nth_error_app2, Nat.sub_diag in Eq by lia. simpl in Eq. injection Eq as El <-.
        destruct (intact_head _ _ H3 El) as [rest ->]. rewrite app_length. lia.
    + rewrite E1, E2. auto.
    + rewrite E3. auto.
  - assert (Hpos : level (a_open a) = L -> length base <= pos).
    { intros El. rewrite El in Em. apply (H2 k); auto. }
    constructor; rewrite ?E4.
    + intros Hv. rewrite nth_error_map, H1 by auto. simpl. destruct (opt_nat_eqb_spec L (level (a_open a))) as [El|El]; simpl; auto.
      destruct (Nat.ltb_spec pos (length base)); auto. specialize (Hpos (eq_sym El)). lia.
    + intros k' q Hk Eq. rewrite nth_error_map in Eq. destruct (nth_error (a_marks a) k') as [[l' p'|l']|] eqn:Ek'; simpl in Eq; try discriminate.
      destruct (_ && _); [discriminate|]. injection Eq as -> ->. eauto.
    + rewrite E1, E2. eapply intact_change; eauto. intros El.
      destruct (intact_head _ _ H3 El) as [rest Er]. rewrite Er. specialize (Hpos El).
      rewrite firstn_app, firstn_all2 by lia. eexists. rewrite <- app_assoc. reflexivity.
    + rewrite E3. intros i Hi. specialize (H4 i Hi). lia.
Qed.

Lemma held_run ops : forall a a' rs, held a -> since j ops -> a_run F a ops = Some (a', rs) -> held a'.
Proof.
  induction ops as [|o ops IH]; intros a a' rs H Hs E; simpl in E; [congruence|].
  destruct (a_step F a o) as [[a1 r]|] eqn:E1; [|discriminate].
  destruct (a_run F a1 ops) as [[a2 rs']|] eqn:E2; [|discriminate]. injection E as <- <-.
  eapply IH; [| |exact E2].
  - eapply held_step; [exact H| |apply a_step_shape; exact E1]. intros k Hk. eapply Hs; [left; reflexivity|auto].
  - intros o' k Hin. apply Hs. right. auto.
Qed.
End Place.

Section FrameIds.
Context {T : Type}.
Variable F : flavor.
Implicit Types (a : doc T) (o : op T) (ops : list (op T)).

(** Open nodes, outermost first, have growing identifiers. *)
Fixpoint stacked (n : nat) (fs : list (frame T)) : Prop :=
  match fs with [] => True | f :: fs => f_id f < n /\ stacked (f_id f) fs end.

Lemma stacked_le n m fs : n <= m -> stacked n fs -> stacked m fs.
Proof. destruct fs; simpl; auto. intros; split; [lia|tauto]. Qed.
Lemma stacked_same fs : forall fs' n, same_frames fs' fs -> stacked n fs -> stacked n fs'.
Proof.
  induction fs as [|f fs IH]; intros [|f' fs'] n [H1 H2] H; try discriminate; auto.
  simpl in H1, H2. injection H1 as E1 H1. injection H2 as E2 H2. simpl in *. rewrite E1. split; [tauto|]. apply IH; [split; auto|tauto].
Qed.
Lemma stacked_level n fs i : stacked n fs -> level fs = Some i -> i < n.
Proof. destruct fs; simpl; intros H E; [discriminate|]. injection E as <-. tauto. Qed.

Definition marks_below a : Prop := forall k m i, nth_error (a_marks a) k = Some m -> mark_level m = Some i -> i < a_n a.
(** The positions of live checkpoints exist. *)
Fixpoint within (cur : nat) (fs : list (frame T)) (m : mark) : Prop :=
  match m with
  | MGone _ => True
  | MAt l p => (level fs = l -> p <= cur) /\ match fs with [] => True | f :: fs => within (length (f_left f)) fs m end
  end.

Record doc_ok a : Prop := {
  dk_stack : stacked (a_n a) (a_open a);
  dk_marks : marks_below a;
  dk_within : forall m, In m (a_marks a) -> within (length (a_cur a)) (a_open a) m;
}.

Lemma doc_ok_new : doc_ok (@doc_new T).
Proof. constructor; simpl; auto.
  - intros [|k]; discriminate.
  - tauto.
Qed.

Lemma within_same fs : forall fs' c m, same_frames fs' fs -> within c fs m -> within c fs' m.
Proof.
  induction fs as [|f fs IH]; intros [|f' fs'] c m [H1 H2] H; try discriminate; auto.
  simpl in H1, H2. injection H1 as E1 H1. injection H2 as E2 H2. destruct m as [l p|]; simpl in *; auto.
  rewrite E1, E2. split; [tauto|]. apply IH; [split; auto|tauto].
Qed.
Lemma within_more fs c c' m : c <= c' -> within c fs m -> within c' fs m.
Proof. destruct fs, m; simpl; auto; intros Hc [A B]; split; auto; intros E; specialize (A E); lia. Qed.
Lemma within_other fs c c' m : mark_level m <> level fs -> within c fs m -> within c' fs m.
Proof. destruct fs, m; simpl; auto; intros Hc [A B]; split; auto; congruence. Qed.
Lemma within_deep fs : forall n l p c, stacked n fs -> (forall i, l = Some i -> n <= i) -> l <> None -> within c fs (MAt l p).
Proof.
  induction fs as [|f fs IH]; intros n l p c Hs Hi Hl; simpl; split; auto; try congruence.
  - intros E. destruct Hs as [Hs _]. specialize (Hi _ (eq_sym E)). lia.
  - destruct Hs as [Hs1 Hs2]. eapply IH; [exact Hs2| |auto]. intros i E. specialize (Hi i E). lia.
Qed.

Lemma doc_ok_step a o a' r : doc_ok a -> shape a o a' r -> doc_ok a'.
Proof.
  intros [H1 H2 H3] HS. destruct HS as
    [o a' r E1 E2 E3 E4 _ _|o d sp fs a' Ev E1 E2 E3 E4 E5|f fs fs' x a' E0 Ex _ _ E1 E2 E3 E4 E5
    |o d sp a' Ev E1 E2 E3 E4 _|a' E1 E2 E3 E4|o k d sp pos x w a' Ek Ev Em Es E1 E2 E3 E4].
  - constructor; unfold marks_below; rewrite ?E1, ?E3, ?E4; auto.
    + eapply stacked_same; eauto.
    + intros m Hm. eapply within_same; eauto.
  - assert (Hb : forall k m i, nth_error (a_marks a) k = Some m -> mark_level m = Some i -> i < a_n a) by exact H2.
    constructor; unfold marks_below; rewrite ?E1, ?E2, ?E4, ?E5.
    + simpl. split; [lia|]. eapply stacked_same; eauto.
    + intros k m i Ek Ei. specialize (Hb k m i Ek Ei). lia.
    + intros m Hm. destruct m as [l p|]; simpl; auto. split.
      * intros El. exfalso. apply In_nth_error in Hm as [k Hk]. specialize (Hb k _ (a_n a) Hk (eq_sym El)). lia.
      * eapply (within_same _ _ _ (MAt l p)); [exact E3|apply (H3 _ Hm)].
  - rewrite E0 in H1, H3. simpl in H1. destruct H1 as [H1 H1'].
    constructor; unfold marks_below; rewrite ?E1, ?E2, ?E4, ?E5.
    + eapply stacked_same; eauto. eapply stacked_le; [|exact H1']. lia.
    + exact H2.
    + intros m Hm. eapply within_same; [exact E3|]. specialize (H3 m Hm). destruct m as [l p|]; [|destruct fs; simpl; auto].
      simpl in H3. destruct H3 as [_ H3]. eapply (within_more _ _ _ (MAt l p)); [|exact H3]. rewrite app_length. lia.
  - constructor; unfold marks_below; rewrite ?E1, ?E3, ?E4.
    + eapply stacked_same; eauto. eapply stacked_le; [|exact H1]. lia.
    + intros k m i Ek Ei. specialize (H2 k m i Ek Ei). lia.
    + intros m Hm. eapply within_same; eauto. eapply within_more; [|apply (H3 m Hm)]. rewrite app_length. lia.
  - constructor; unfold marks_below; rewrite ?E1, ?E2, ?E3, ?E4; auto.
    + intros k m i Ek Ei. destruct (Nat.lt_ge_cases k (length (a_marks a))).
      * rewrite nth_error_app1 in Ek by auto. eapply H2; eauto.
      * assert (k = length (a_marks a)) as ->.
        { assert (k < length (a_marks a ++ [MAt (level (a_open a)) (length (a_cur a))])) by (apply nth_error_Some; congruence).
          rewrite app_length in *; simpl in *; lia. }
        rewrite nth_error_app2, Nat.sub_diag in Ek by lia. simpl in Ek. injection Ek as <-. simpl in Ei.
        eapply stacked_level; eauto.
    + intros m Hm. apply in_app_iff in Hm as [Hm|[<-|[]]]; auto. destruct (a_open a) as [|f fs]; simpl; split; auto.
      simpl in H1. eapply (within_deep fs (f_id f)); [tauto| |congruence]. intros i Ei. injection Ei as <-. lia.
  - constructor; unfold marks_below; rewrite ?E1, ?E2, ?E3, ?E4.
    + eapply stacked_le; [|exact H1]. lia.
    + intros k' m i Ek' Ei. rewrite nth_error_map in Ek'. destruct (nth_error (a_marks a) k') as [m'|] eqn:Em'; [|discriminate].
      simpl in Ek'. injection Ek' as <-. assert (mark_level m' = Some i).
      { destruct m' as [l p|l]; simpl in *; auto. destruct (_ && _); auto. }
      specialize (H2 k' m' i Em' H). lia.
    + intros m Hm. apply in_map_iff in Hm as (m' & <- & Hm'). specialize (H3 m' Hm').
      destruct m' as [l p|l]; [|destruct (a_open a); exact I]. simpl swallow. destruct (opt_nat_eqb_spec l (level (a_open a))) as [El|El]; simpl andb; cbv iota.
      * destruct (Nat.ltb_spec pos p); [destruct (a_open a); exact I|].
        assert (Hp : pos < length (a_cur a)).
        { pose proof (skipn_length pos (a_cur a)) as HL. rewrite Es in HL. simpl in HL. lia. }
        destruct (a_open a) as [|f fs]; simpl in *; (split; [intros _|tauto]); rewrite app_length, firstn_length; simpl; lia.
      * eapply within_other; [|exact H3]. simpl. congruence.
Qed.

Lemma doc_ok_run ops : forall a a' rs, doc_ok a -> a_run F a ops = Some (a', rs) -> doc_ok a'.
Proof.
  induction ops as [|o ops IH]; intros a a' rs H E; simpl in E; [congruence|].
  destruct (a_step F a o) as [[a1 r]|] eqn:E1; [|discriminate].
  destruct (a_run F a1 ops) as [[a2 rs']|] eqn:E2; [|discriminate]. injection E as <- <-.
  eapply IH; [|exact E2]. eapply doc_ok_step; [exact H|apply (a_step_shape F); exact E1].
Qed.

Lemma a_run_app ops1 ops2 : forall a, a_run F a (ops1 ++ ops2) =
  match a_run F a ops1 with None => None | Some (a1, r1) =>
    match a_run F a1 ops2 with None => None | Some (a2, r2) => Some (a2, r1 ++ r2) end end.
Proof.
  induction ops1 as [|o ops1 IH]; intros a; simpl.
  - destruct (a_run F a ops2) as [[? ?]|]; auto.
  - destruct (a_step F a o) as [[a1 r]|]; auto. rewrite IH. destruct (a_run F a1 ops1) as [[a2 r2]|]; auto.
    destruct (a_run F a2 ops2) as [[? ?]|]; auto.
Qed.
End FrameIds.
