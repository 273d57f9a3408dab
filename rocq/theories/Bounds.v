(** Sizes: a document never outgrows the pointer width; identifiers of nodes
    survive the encoding. *)
From Coq Require Import Lia Permutation.
From Verif Require Import Base Pointer Index Tree Builder Hist Node Spec Rep Marks Refine TreeRep.

Section Bounds.
Context {T : Type}.
Variable F : flavor.
Implicit Types a : doc T.

Definition bounded a : Prop := (N.of_nat (a_n a) <= int_max F (fl_width F))%N.

Lemma full_false a : full F a = false -> (N.of_nat (S (a_n a)) <= int_max F (fl_width F))%N.
Proof. unfold full. intros H. apply N.leb_gt in H. lia. Qed.

Lemma a_step_bounded a o a' r : bounded a -> a_step F a o = Some (a', r) -> bounded a'.
Proof.
  unfold bounded. intros H E.
  assert (Hf : full F a = false -> (N.of_nat (S (a_n a)) <= int_max F (fl_width F))%N) by apply full_false.
  destruct o; simpl in E.
  - injection E as E. unfold a_open_with in E. destruct (full F a); injection E as <- <-; simpl; auto.
  - injection E as E. unfold a_open_with in E. destruct (full F a); injection E as <- <-; simpl; auto.
  - injection E as E. unfold a_close in E. destruct (a_open a); injection E as <- <-; simpl; auto.
  - injection E as E. unfold a_token in E. destruct (len_is_empty F len).
    + destruct (full F a); injection E as <- <-; simpl; auto.
    + destruct (ix_checked_add_len F (a_cursor a) len); [|injection E as <- <-; auto].
      destruct (full F a); injection E as <- <-; simpl; auto.
  - injection E as E. unfold a_token in E. destruct (len_is_empty F 0).
    + destruct (full F a); injection E as <- <-; simpl; auto.
    + destruct (ix_checked_add_len F (a_cursor a) 0); [|injection E as <- <-; auto].
      destruct (full F a); injection E as <- <-; simpl; auto.
  - injection E as E. unfold a_token_with in E. destruct (full F a); injection E as <- <-; simpl; auto.
  - injection E as E. unfold a_checkpoint in E. destruct (full F a); injection E as <- <-; simpl; auto.
  - unfold a_close_at in E. destruct (nth_error (a_marks a) k) as [m|]; [|injection E as <- <-; auto].
    destruct (negb _); [injection E as <- <-; auto|]. destruct (full F a); [injection E as <- <-; auto|].
    destruct m as [lv pos|]; [|discriminate].
    destruct (skipn pos (a_cur a)); injection E as <- <-; simpl; auto.
  - unfold a_close_at in E. destruct (nth_error (a_marks a) k) as [m|]; [|injection E as <- <-; auto].
    destruct (negb _); [injection E as <- <-; auto|]. destruct (full F a); [injection E as <- <-; auto|].
    destruct m as [lv pos|]; [|discriminate].
    destruct (skipn pos (a_cur a)); injection E as <- <-; simpl; auto.
  - injection E as <- <-. auto.
Qed.

Lemma a_run_bounded ops : forall a a' rs, bounded a -> a_run F a ops = Some (a', rs) -> bounded a'.
Proof.
  induction ops as [|o ops IH]; simpl; intros a a' rs H E; [injection E as <- <-; auto|].
  destruct (a_step F a o) as [[a1 r]|] eqn:E1; [|discriminate].
  destruct (a_run F a1 ops) as [[a2 rs']|] eqn:E2; [|discriminate]. injection E as <- <-.
  eapply IH; [|apply E2]. eapply a_step_bounded; eauto.
Qed.

Lemma doc_new_bounded : bounded doc_new.
Proof. unfold bounded. simpl. lia. Qed.

Lemma built_bounded (ops : list (op T)) (t : tree T) l : vec_flavor F -> document F ops l -> builds F ops t ->
  (N.of_nat (length (t_nodes t)) <= int_max F (fl_width F))%N.
Proof.
  intros HF (a & rs & Hd & Ho & <-) Hb.
  pose proof (a_run_bounded _ _ _ _ doc_new_bounded Hd) as Hbd.
  destruct (refines F HF ops a rs Hd) as (w & E & HR).
  unfold builds, run_world in Hb. rewrite E in Hb. simpl in Hb.
  pose proof (r_builder _ _ HR) as HB.
  unfold build in Hb. rewrite (br_parent _ _ HB), Ho in Hb. simpl in Hb. injection Hb as <-.
  rewrite (br_len _ _ HB). auto.
Qed.
End Bounds.

Lemma ptr_unchecked_get F v :
  (v < int_max F (fl_width F))%N -> (v <= fl_usize_max F)%N ->
  ptr_get F (ptr_new_unchecked F v) = v.
Proof.
  unfold ptr_get, ptr_new_unchecked. set (m := int_max F (fl_width F)). intros H1 H2.
  rewrite (N.mod_small v) by lia. rewrite (N.mod_small (v + 1)) by lia.
  replace (v + 1 + m)%N with (v + 1 * (m + 1))%N by lia.
  rewrite N.mod_add by lia. rewrite (N.mod_small v) by lia. apply N.mod_small. lia.
Qed.

Lemma node_id_spec {T} F (n : node T) :
  (N.of_nat (fst n) < int_max F (fl_width F))%N -> (N.of_nat (fst n) <= fl_usize_max F)%N ->
  node_id F n = fst n.
Proof.
  intros H1 H2. unfold node_id, node_id_raw. rewrite ptr_unchecked_get; auto. apply Nat2N.id.
Qed.

Lemma fits_usize {T} F (t : tree T) : fits F t -> (N.of_nat (length (t_nodes t)) <= fl_usize_max F)%N.
Proof.
  unfold fits, isize_max. intros H.
  assert (Hd : ((Z.of_N (fl_usize_max F) - 1) / 2 <= Z.of_N (fl_usize_max F))%Z).
  { apply Z.div_le_upper_bound; lia. }
  lia.
Qed.
