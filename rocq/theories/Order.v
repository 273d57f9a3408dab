(** Siblings are numbered in the order they were added. *)
From Coq Require Import Lia Sorted.
From Verif Require Import Base Index Tree Builder Hist Spec DocInv.

Section Order.
Context {T : Type}.
Variable F : flavor.
Implicit Types s : list (rose T).
Implicit Types a : doc T.

Definition below (n : nat) s : Prop := Forall (fun x => r_id x < n) s.
Definition up s : Prop := StronglySorted lt (map r_id s).
(** Every sibling list below [s], and [s] itself. *)
Definition ups s : Prop := up s /\ Forall (fun x => up (r_kids x)) (preorder_list s).

Fixpoint fine (n : nat) (fs : list (frame T)) : Prop :=
  match fs with
  | [] => True
  | f :: fs => f_id f < n /\ ups (f_left f) /\ below (f_id f) (f_left f) /\ fine (f_id f) fs
  end.
Definition inv a : Prop := ups (a_cur a) /\ below (a_n a) (a_cur a) /\ fine (a_n a) (a_open a).

Lemma up_snoc s x : up s -> below (r_id x) s -> up (s ++ [x]).
Proof.
  unfold up. induction s as [|y s IH]; simpl; intros H1 H2.
  - repeat constructor.
  - inversion H1; subst. inversion H2; subst. constructor; auto.
    rewrite map_app. apply Forall_app. split; auto. simpl. auto.
Qed.
Lemma preorder_snoc s x : preorder_list (s ++ [x]) = preorder_list s ++ x :: preorder_list (r_kids x).
Proof.
  unfold preorder_list. rewrite flat_map_app. simpl. rewrite app_nil_r. destruct x; auto.
Qed.
Lemma ups_snoc s x : ups s -> below (r_id x) s -> ups (r_kids x) -> ups (s ++ [x]).
Proof.
  intros [H1 H2] H3 [H4 H5]. split; [apply up_snoc; auto|]. rewrite preorder_snoc.
  apply Forall_app. split; auto.
Qed.
Lemma sorted_app (s1 s2 : list nat) : StronglySorted lt (s1 ++ s2) -> StronglySorted lt s1 /\ StronglySorted lt s2.
Proof.
  induction s1 as [|x s1 IH]; simpl; intros H; [split; auto; constructor|].
  inversion H; subst. destruct (IH H2) as [H4 H5]. split; auto. constructor; auto.
  apply Forall_app in H3. tauto.
Qed.
Lemma ups_app s1 s2 : ups (s1 ++ s2) -> ups s1 /\ ups s2.
Proof.
  unfold ups, up, preorder_list. rewrite map_app, flat_map_app. intros [H1 H2].
  apply sorted_app in H1 as [? ?]. apply Forall_app in H2 as [? ?]. tauto.
Qed.
Lemma below_app n s1 s2 : below n (s1 ++ s2) <-> below n s1 /\ below n s2.
Proof. apply Forall_app. Qed.
Lemma below_le n m s : n <= m -> below n s -> below m s.
Proof. intros H. apply Forall_impl. intros x G. lia. Qed.
Lemma fine_le n m fs : n <= m -> fine n fs -> fine m fs.
Proof. destruct fs; simpl; auto. intros H (H1 & H2). split; auto. lia. Qed.
Lemma fine_touch n e fs : fine n (touch e fs) <-> fine n fs.
Proof. destruct fs; simpl; tauto. Qed.
Lemma fine_widen n e fs : fine n (widen e fs) <-> fine n fs.
Proof. destruct fs; simpl; tauto. Qed.

Lemma moved_inv a a' r v : moved a a' r v -> inv a -> inv a'.
Proof.
  intros H (H1 & H2 & H3). destruct H; unfold inv.
  - rewrite H, H0, H4. auto.
  - rewrite H, H0, H4. split; [repeat constructor|]. split; [constructor|].
    simpl. split; auto. split; auto. split; auto. apply fine_touch. auto.
  - rewrite H in H3. simpl in H3. destruct H3 as (H3 & H3a & H3b & H3c).
    rewrite H0, H4, H5. split; [|split].
    + apply ups_snoc; auto.
    + apply below_app. split; [eapply below_le; [|apply H3b]; lia|]. repeat constructor; auto.
    + apply fine_widen. eapply fine_le; [|apply H3c]. lia.
  - rewrite H, H4, H5. split; [|split].
    + apply ups_snoc; auto. repeat constructor.
    + apply below_app. split; [eapply below_le; [|apply H2]; lia|]. repeat constructor.
    + eapply fine_le with (n := a_n a); [lia|]. destruct H0 as [-> | ->]; rewrite ?fine_widen, fine_touch; auto.
  - rewrite H in H1, H2. apply ups_app in H1 as [H1 H1']. apply below_app in H2 as [H2 H2'].
    rewrite H0, H4, H5. split; [|split].
    + apply ups_snoc; auto.
    + apply below_app. split; [eapply below_le; [|apply H2]; lia|]. repeat constructor.
    + eapply fine_le; [|apply H3]. lia.
Qed.

Lemma run_inv ops : forall a a' rs, inv a -> a_run F a ops = Some (a', rs) -> inv a'.
Proof.
  induction ops as [|o ops IH]; simpl; intros a a' rs H E; [injection E as <- <-; auto|].
  destruct (a_step F a o) as [[a1 r]|] eqn:E1; [|discriminate].
  destruct (a_run F a1 ops) as [[a2 rs']|] eqn:E2; [|discriminate]. injection E as <- <-.
  destruct (a_step_moved _ _ _ _ _ E1) as (v & Hm & _). apply moved_inv in Hm; eauto.
Qed.

Lemma document_up ops l p s : document F ops l -> In (p, s) (sibling_lists l) -> up s.
Proof.
  intros (a & rs & Hd & _ & <-) Hs. unfold describes in Hd. apply run_inv in Hd.
  - destruct Hd as ((H1 & H2) & _). destruct Hs as [E|Hi]; [congruence|].
    apply in_map_iff in Hi as (q & E & Hq). injection E as <- <-.
    eapply Forall_forall in H2; eauto.
  - repeat split; simpl; try constructor.
Qed.
End Order.

