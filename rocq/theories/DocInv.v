(** Invariants of documents under construction. *)
From Coq Require Import Lia Permutation.
From Verif Require Import Base Pointer Index Tree Builder Hist Node Iter Spec Rep Marks Refine TreeRep.

Section DocInv.
Context {T : Type}.
Variable F : flavor.
Implicit Types a : doc T.

(** A step is one of these moves. *)
Inductive moved a : doc T -> out -> option T -> Prop :=
| mv_same a' r : a_cur a' = a_cur a -> a_open a' = a_open a -> a_n a' = a_n a ->
    (forall i, r <> RNode i) -> moved a a' r None
| mv_open d sp a' : a_cur a' = [] -> a_open a' = Frame (a_n a) d sp (a_cur a) :: touch (s_end sp) (a_open a) ->
    a_n a' = S (a_n a) -> moved a a' (RNode (a_n a)) (Some d)
| mv_close f fs a' : a_open a = f :: fs ->
    a_cur a' = f_left f ++ [Nd (f_id f) KOpen (f_data f) (f_span f) (a_cur a)] ->
    a_open a' = widen (f_span f) fs -> a_n a' = a_n a -> moved a a' RUnit None
| mv_leaf d sp fs a' : a_cur a' = a_cur a ++ [Nd (a_n a) KLeaf d sp []] ->
    (fs = touch (s_end sp) (a_open a) \/ fs = widen sp (touch (s_end sp) (a_open a))) ->
    a_open a' = fs -> a_n a' = S (a_n a) -> moved a a' (RNode (a_n a)) (Some d)
| mv_wrap d sp s1 x s2 a' : a_cur a = s1 ++ x :: s2 ->
    a_cur a' = s1 ++ [Nd (a_n a) KWrap d sp (x :: s2)] ->
    a_open a' = a_open a -> a_n a' = S (a_n a) -> moved a a' (RNode (a_n a)) (Some d).

Lemma a_step_moved a o a' r : a_step F a o = Some (a', r) ->
  exists v, moved a a' r v /\ (v <> None -> v = op_value o).
Proof.
  intros E.
  assert (Hclose : forall k d osp, a_close_at F k d osp a = Some (a', r) ->
     exists v, moved a a' r v /\ (v <> None -> v = Some d)).
  { intros k d osp E'. unfold a_close_at in E'.
    destruct (nth_error (a_marks a) k) as [m|];
      [|injection E' as <- <-; exists None; split; [constructor; auto; congruence|congruence]].
    destruct (negb _); [injection E' as <- <-; exists None; split; [constructor; auto; congruence|congruence]|].
    destruct (full F a); [injection E' as <- <-; exists None; split; [constructor; auto; congruence|congruence]|].
    destruct m as [lv pos|]; [|discriminate].
    destruct (skipn pos (a_cur a)) as [|x w] eqn:Es; injection E' as <- <-.
    - exists (Some d). split; auto. eapply mv_leaf; [reflexivity|left; reflexivity|reflexivity|reflexivity].
    - exists (Some d). split; auto. eapply mv_wrap; simpl; eauto.
      rewrite <- Es. symmetry. apply firstn_skipn. }
  assert (Htok : forall d len, a_token F d len a = (a', r) ->
     exists v, moved a a' r v /\ (v <> None -> v = Some d)).
  { intros d len E'. unfold a_token in E'. destruct (len_is_empty F len).
    - destruct (full F a); injection E' as <- <-;
        [exists None; split; [constructor; auto; congruence|congruence]|].
      exists (Some d). split; auto. eapply mv_leaf; [reflexivity|left; reflexivity|reflexivity|reflexivity].
    - destruct (ix_checked_add_len F (a_cursor a) len);
        [|injection E' as <- <-; exists None; split; [constructor; auto; congruence|congruence]].
      destruct (full F a); injection E' as <- <-;
        [exists None; split; [constructor; auto; congruence|congruence]|].
      exists (Some d). split; auto. eapply mv_leaf; [reflexivity|left; reflexivity|reflexivity|reflexivity]. }
  destruct o; cbn [a_step] in E; cbn [op_value]; try (eapply Hclose; eauto; fail);
    try (injection E as E; eapply Htok; eauto; fail).
  - injection E as E. unfold a_open_with in E. destruct (full F a); injection E as <- <-.
    + exists None; split; [constructor; auto; congruence|congruence].
    + eexists; split; [eapply mv_open with (sp := span_point (a_cursor a)); reflexivity|auto].
  - injection E as E. unfold a_open_with in E. destruct (full F a); injection E as <- <-.
    + exists None; split; [constructor; auto; congruence|congruence].
    + eexists; split; [eapply mv_open; reflexivity|auto].
  - injection E as E. unfold a_close in E. destruct (a_open a) as [|f fs] eqn:Eo; injection E as <- <-.
    + exists None; split; [constructor; auto; congruence|congruence].
    + exists None. split; [eapply mv_close; simpl; eauto|congruence].
  - injection E as E. unfold a_token_with in E. destruct (full F a); injection E as <- <-;
      [exists None; split; [constructor; auto; congruence|congruence]|].
    exists (Some d). split; auto. eapply mv_leaf; [reflexivity|right; reflexivity|reflexivity|reflexivity].
  - injection E as E. unfold a_checkpoint in E. destruct (full F a); injection E as <- <-;
      (exists None; split; [constructor; simpl; auto; congruence|congruence]).
  - injection E as <- <-. exists None; split; [constructor; simpl; auto; congruence|congruence].
Qed.

(** ** All nodes of a document under construction, with their values *)
Fixpoint frames_vals (fs : list (frame T)) : list (nat * T) :=
  match fs with
  | [] => []
  | f :: fs => (f_id f, f_data f) :: map (fun x => (r_id x, r_data x)) (preorder_list (f_left f)) ++ frames_vals fs
  end.
Definition vals_l (l : list (rose T)) := map (fun x => (r_id x, r_data x)) (preorder_list l).
Definition doc_vals a := vals_l (a_cur a) ++ frames_vals (a_open a).

Lemma frames_vals_touch e fs : frames_vals (touch e fs) = frames_vals fs.
Proof. destruct fs; auto. Qed.
Lemma frames_vals_widen e fs : frames_vals (widen e fs) = frames_vals fs.
Proof. destruct fs; auto. Qed.
Lemma vals_l_app l1 l2 : vals_l (l1 ++ l2) = vals_l l1 ++ vals_l l2.
Proof. unfold vals_l, preorder_list. rewrite flat_map_app, map_app. auto. Qed.
Lemma vals_l_one id k d sp kids : vals_l [Nd id k d sp kids] = (id, d) :: vals_l kids.
Proof. unfold vals_l, preorder_list. simpl. rewrite app_nil_r. auto. Qed.

Lemma moved_vals a a' r v : moved a a' r v ->
  match v with
  | None => Permutation (doc_vals a') (doc_vals a) /\ a_n a' = a_n a /\ (forall i, r <> RNode i)
  | Some d => Permutation (doc_vals a') ((a_n a, d) :: doc_vals a) /\ a_n a' = S (a_n a) /\ r = RNode (a_n a)
  end.
Proof.
  intros H. destruct H; unfold doc_vals.
  - rewrite H, H0. auto.
  - rewrite H, H0. simpl. rewrite frames_vals_touch. auto.
  - rewrite H, H0, H1, frames_vals_widen, vals_l_app, vals_l_one. simpl. split; [|split; auto; congruence].
    fold (vals_l (f_left f)).
    rewrite <- app_assoc. simpl.
    etransitivity; [symmetry; apply Permutation_middle|].
    etransitivity; [|apply Permutation_middle]. constructor.
    rewrite !app_assoc. apply Permutation_app_tail. apply Permutation_app_comm.
  - split; auto. rewrite H, vals_l_app, vals_l_one.
    assert (frames_vals (a_open a') = frames_vals (a_open a)) as ->.
    { rewrite H1. destruct H0 as [-> | ->]; rewrite ?frames_vals_widen, frames_vals_touch; auto. }
    unfold vals_l at 2. simpl. rewrite <- app_assoc. simpl.
    symmetry. apply Permutation_middle.
  - split; auto. rewrite H0, H1, H, !vals_l_app, vals_l_one.
    rewrite <- app_assoc. simpl. rewrite <- app_assoc. symmetry. apply Permutation_middle.
Qed.

Definition numbered (n : nat) (l : list T) : list (nat * T) := combine (seq n (length l)) l.

Lemma numbered_snoc n l d : numbered n (l ++ [d]) = numbered n l ++ [(n + length l, d)].
Proof.
  unfold numbered. revert n; induction l as [|x l IH]; intros n; simpl.
  - rewrite Nat.add_0_r. auto.
  - rewrite IH. simpl. rewrite Nat.add_succ_r. auto.
Qed.

Lemma inserted_app (ops1 ops2 : list (op T)) rs1 rs2 : length ops1 = length rs1 ->
  inserted (ops1 ++ ops2) (rs1 ++ rs2) = inserted ops1 rs1 ++ inserted ops2 rs2.
Proof.
  revert rs1; induction ops1 as [|o ops1 IH]; intros [|r rs1] H; simpl in *; try lia; auto.
  destruct r; auto. destruct (op_value o); simpl; auto. rewrite IH; auto.
Qed.

Lemma a_run_length ops : forall a a' rs, a_run F a ops = Some (a', rs) -> length rs = length ops.
Proof.
  induction ops as [|o ops IH]; simpl; intros a a' rs E; [injection E as <- <-; auto|].
  destruct (a_step F a o) as [[a1 r]|]; [|discriminate].
  destruct (a_run F a1 ops) as [[a2 rs']|] eqn:E2; [|discriminate]. injection E as <- <-.
  simpl. f_equal. eauto.
Qed.

Lemma a_run_vals ops : forall a a' rs vs,
  Permutation (doc_vals a) (numbered 0 vs) -> a_n a = length vs ->
  a_run F a ops = Some (a', rs) ->
  Permutation (doc_vals a') (numbered 0 (vs ++ inserted ops rs)) /\ a_n a' = length (vs ++ inserted ops rs).
Proof.
  induction ops as [|o ops IH]; simpl; intros a a' rs vs HP Hn E.
  - injection E as <- <-. rewrite app_nil_r. auto.
  - destruct (a_step F a o) as [[a1 r]|] eqn:E1; [|discriminate].
    destruct (a_run F a1 ops) as [[a2 rs']|] eqn:E2; [|discriminate]. injection E as <- <-.
    destruct (a_step_moved _ _ _ _ E1) as (v & Hm & Hv). apply moved_vals in Hm.
    destruct v as [d|].
    + destruct Hm as (HP1 & Hn1 & ->). rewrite <- Hv by congruence.
      specialize (IH a1 a2 rs' (vs ++ [d])). rewrite <- app_assoc in IH. simpl in IH.
      apply IH; auto.
      * rewrite HP1, numbered_snoc, HP, Hn. simpl. apply Permutation_cons_append.
      * rewrite app_length. simpl. lia.
    + destruct Hm as (HP1 & Hn1 & Hr).
      assert (Hi : match r with
        | RNode _ => match op_value o with Some d => d :: inserted ops rs' | None => inserted ops rs' end
        | _ => inserted ops rs' end = inserted ops rs').
      { destruct r; auto. exfalso. eapply Hr; eauto. }
      rewrite Hi. apply (IH a1 a2 rs' vs); auto; [rewrite HP1; auto|lia].
Qed.

Lemma describes_vals ops a rs : describes F ops a rs ->
  Permutation (doc_vals a) (numbered 0 (inserted ops rs)) /\ a_n a = length (inserted ops rs).
Proof. intros H. apply (a_run_vals ops doc_new a rs []); auto. Qed.

Lemma document_vals ops l : document F ops l -> exists a rs, describes F ops a rs /\
  Permutation (map (fun x => (r_id x, r_data x)) (preorder_list l)) (numbered 0 (inserted ops rs)).
Proof.
  intros (a & rs & Hd & Ho & <-). exists a, rs. split; auto.
  destruct (describes_vals _ _ _ Hd) as [H _]. unfold doc_vals in H. rewrite Ho in H. simpl in H.
  rewrite app_nil_r in H. auto.
Qed.

(** ** Nesting *)
Lemma touch_length e (fs : list (frame T)) : length (touch e fs) = length fs.
Proof. destruct fs; auto. Qed.
Lemma widen_length e (fs : list (frame T)) : length (widen e fs) = length fs.
Proof. destruct fs; auto. Qed.

Lemma a_close_at_open k d osp a a' r : a_close_at F k d osp a = Some (a', r) ->
  length (a_open a') = length (a_open a).
Proof.
  unfold a_close_at. intros E.
  destruct (nth_error (a_marks a) k) as [m|]; [|injection E as <- <-; auto].
  destruct (negb _); [injection E as <- <-; auto|]. destruct (full F a); [injection E as <- <-; auto|].
  destruct m as [lv pos|]; [|discriminate].
  destruct (skipn pos (a_cur a)); injection E as <- <-; simpl; auto. apply touch_length.
Qed.
Lemma a_token_open d len a a' r : a_token F d len a = (a', r) -> length (a_open a') = length (a_open a).
Proof.
  unfold a_token. intros E. destruct (len_is_empty F len).
  - destruct (full F a); injection E as <- <-; simpl; auto. apply touch_length.
  - destruct (ix_checked_add_len F (a_cursor a) len); [|injection E as <- <-; auto].
    destruct (full F a); injection E as <- <-; simpl; auto. apply touch_length.
Qed.

Lemma nesting_step a o a' r ops rs : a_step F a o = Some (a', r) ->
  nesting (length (a_open a)) (o :: ops) (r :: rs) = nesting (length (a_open a')) ops rs.
Proof.
  intros E. destruct o; simpl in E; try (injection E as E).
  - unfold a_open_with in E. destruct (full F a); injection E as <- <-; simpl; rewrite ?touch_length; auto.
  - unfold a_open_with in E. destruct (full F a); injection E as <- <-; simpl; rewrite ?touch_length; auto.
  - unfold a_close in E. destruct (a_open a) as [|f fs] eqn:Eo; injection E as <- <-; simpl;
      rewrite ?Eo, ?widen_length; auto.
  - apply a_token_open in E. simpl. rewrite E. auto.
  - apply a_token_open in E. simpl. rewrite E. auto.
  - unfold a_token_with in E. destruct (full F a); injection E as <- <-; simpl;
      rewrite ?widen_length, ?touch_length; auto.
  - unfold a_checkpoint in E. destruct (full F a); injection E as <- <-; simpl; auto.
  - apply a_close_at_open in E. simpl. rewrite E. auto.
  - apply a_close_at_open in E. simpl. rewrite E. auto.
  - subst. auto.
Qed.

Lemma a_run_nesting ops : forall a a' rs, a_run F a ops = Some (a', rs) ->
  length (a_open a') = nesting (length (a_open a)) ops rs.
Proof.
  induction ops as [|o ops IH]; intros a a' rs E.
  - simpl in E. injection E as <- <-. auto.
  - cbn [a_run] in E. destruct (a_step F a o) as [[a1 r]|] eqn:E1; [|discriminate].
    destruct (a_run F a1 ops) as [[a2 rs']|] eqn:E2; [|discriminate]. injection E as <- <-.
    rewrite (nesting_step _ _ _ _ _ _ E1). eauto.
Qed.
End DocInv.
