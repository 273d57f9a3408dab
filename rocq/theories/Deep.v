(** The depths of a tour. *)
From Coq Require Import Lia QArith Permutation.
From Verif Require Import Base Pointer Index Tree Builder Hist Node Iter Edit Spec SpecReads SpecShape SpecTour Rep Refine TreeRep Enum Walk AllHist StepFacts AllPlaced Modify PropsSafe
  AllReads Settle Shape Tour.
Open Scope nat_scope.

Section Deep.
Context {T : Type}.
Variable par : nat -> option nat.
Implicit Types (x : rose T) (l : list (rose T)).

(** Not above the level of the place that the walk has climbed to. *)
Definition level_ok (A : list nat) (at_ : option nat) (d : Z) : Prop :=
  match at_ with None => (-1 <= d)%Z | Some q => exists pre post, A = pre ++ q :: post /\ (Z.of_nat (length post) <= d)%Z end.
Definition deep_enough (k : Z) (l : list (rose T)) (v : Z * event * rose T) : Prop :=
  exists j, In (j, snd v) (flat_map (preorder_depth k) l) /\ (j <= fst (fst v))%Z.
Lemma deep_app k l l' v : deep_enough k l v \/ deep_enough k l' v -> deep_enough k (l ++ l') v.
Proof. unfold deep_enough. rewrite flat_map_app. intros [(j & H & L)|(j & H & L)]; exists j; split; auto; apply in_app_iff; auto. Qed.
Lemma level_tail i A q d : ~ In i A -> q <> i -> level_ok (i :: A) (Some q) d -> level_ok A (Some q) d.
Proof.
  intros Hi Hq (pre & post & E & L). destruct pre as [|y pre]; simpl in E; injection E as E1 E2; [congruence|]. exists pre, post. auto.
Qed.
Lemma level_head i A d : ~ In i A -> level_ok (i :: A) (Some i) d -> (Z.of_nat (length A) <= d)%Z.
Proof.
  intros Hi (pre & post & E & L). destruct pre as [|y pre]; simpl in E; [injection E as E2; subst; auto|]. injection E as E1 E2. exfalso. apply Hi. rewrite E2. apply in_elt.
Qed.
Lemma named_level A i d : par i = None \/ (exists q, par i = Some q /\ In q A) -> (Z.of_nat (length A) <= d)%Z -> level_ok A (par i) (d - 1).
Proof.
  intros [->|(q & -> & Hq)] L; [simpl; lia|]. apply in_split in Hq as (pre & post & ->). exists pre, post. split; auto. rewrite app_length in L. simpl in L. lia.
Qed.

Lemma tour_deep A l : within par A l -> NoDup (A ++ ids l) -> forall e d, l <> [] -> (Z.of_nat (length A) <= d)%Z ->
  let '(tr, (at_, d')) := tour_row par e d l in level_ok A at_ d' /\ Forall (deep_enough (Z.of_nat (length A)) l) tr.
Proof.
  induction 1 as [A|A i k d0 sp kids rest Hp H1 IH1 H2 IH2]; intros Hnd e d Hne Hd; [congruence|].
  rewrite ids_cons in Hnd.
  assert (Hi : ~ In i A). { intros X. apply NoDup_remove_2 in Hnd. apply Hnd. apply in_app_iff; auto. }
  assert (N1 : NoDup ((i :: A) ++ ids kids)).
  { apply (Permutation_NoDup (l := A ++ i :: ids kids)); [symmetry; apply (Permutation_middle A (ids kids) i)|]. rewrite app_comm_cons, app_assoc in Hnd. apply NoDup_app_iff in Hnd. tauto. }
  assert (N2 : NoDup (A ++ ids rest)).
  { apply NoDup_app_iff in Hnd as (Ha & Hb & Hc). apply NoDup_app_iff. split; auto. inversion Hb as [|? ? _ Hb']; subst. apply NoDup_app_iff in Hb'. split; [tauto|]. intros y Hy. specialize (Hc y Hy). simpl in Hc. rewrite in_app_iff in Hc. tauto. }
  specialize (IH1 N1). specialize (IH2 N2). set (a := Z.of_nat (length A)) in *.
  assert (X : let '(tr, (at_, d')) := tour_from par e d (Nd i k d0 sp kids) in level_ok (i :: A) at_ d' /\ Forall (deep_enough a [Nd i k d0 sp kids]) tr).
  { rewrite tour_from_eq. cbn [r_kids r_id].
    assert (G : forall d' e', (a <= d')%Z -> deep_enough a [Nd i k d0 sp kids] (d', e', Nd i k d0 sp kids)).
    { intros d' e' L. exists a. simpl. auto. }
    destruct kids as [|c kids']. { split; [|auto]. exists [], A. auto. }
    specialize (IH1 Down (d + 1)%Z ltac:(discriminate)). cbn [length] in IH1. specialize (IH1 ltac:(lia)).
    destruct (tour_row par Down (d + 1)%Z (c :: kids')) as [tr [at_ d']]. destruct IH1 as [L1 V1].
    assert (V : Forall (deep_enough a [Nd i k d0 sp (c :: kids')]) tr).
    { eapply Forall_impl; [|exact V1]. intros v (j & Hj & L). exists j. split; auto. cbn [flat_map preorder_depth]. rewrite app_nil_r. right. replace (a + 1)%Z with (Z.of_nat (S (length A))) by lia. exact Hj. }
    destruct (opt_nat_eqb at_ (Some i)) eqn:Eat.
    - apply opt_eqb in Eat. subst at_. split; auto. constructor; auto. apply Forall_app. split; auto. constructor; auto. apply G. apply (level_head i A d'); auto.
    - split; auto. }
  rewrite tour_row_cons. destruct (tour_from par e d (Nd i k d0 sp kids)) as [tr [at_ d']]. destruct X as [L1 V1]. cbn [r_id].
  assert (V : Forall (deep_enough a (Nd i k d0 sp kids :: rest)) tr).
  { eapply Forall_impl; [|exact V1]. intros v Hv. apply (deep_app _ [_]). auto. }
  destruct (opt_nat_eqb at_ (Some i)) eqn:Eat.
  - apply opt_eqb in Eat. subst at_. apply level_head in L1; auto. destruct rest as [|y rest'].
    + split; auto. apply named_level; auto.
    + specialize (IH2 Next d' ltac:(discriminate) L1). destruct (tour_row par Next d' (y :: rest')) as [tr' [at2 d'']]. destruct IH2 as [L2 V2]. split; auto.
      apply Forall_app. split; auto. eapply Forall_impl; [|exact V2]. intros v Hv. apply (deep_app _ [_]). auto.
  - split; auto. destruct at_ as [q|]; auto. eapply level_tail; eauto. intros ->. rewrite opt_eqb_refl in Eat. discriminate.
Qed.
End Deep.

Lemma depth_pos {T} j (x : rose T) l k : (0 <= k)%Z -> In (j, x) (flat_map (preorder_depth k) l) -> (0 <= j)%Z.
Proof.
  assert (G : forall (y : rose T) k j x, (0 <= k)%Z -> In (j, x) (preorder_depth k y) -> (0 <= j)%Z).
  { induction y as [i kd d sp kids IH] using rose_ind'. intros k0 j0 x0 Hk. cbn [preorder_depth]. intros [E|H]; [injection E as <- _; auto|]. apply in_flat_map in H as (z & Hz & H). rewrite Forall_forall in IH. eapply IH; [exact Hz| |exact H]. lia. }
  intros Hk H. apply in_flat_map in H as (z & Hz & H). eapply G; eauto.
Qed.

Lemma history_deep T F (ops : list (op T)) l : vec_flavor F -> let t := tree_so_far F ops in reads t (tree_first t) l ->
  Forall (deep_enough 0 l) (tour (par (t_nodes t)) l).
Proof.
  intros HF t Hl. destruct l as [|x l]; [constructor|]. destruct (placed_reads _ _ (run_placed F HF ops)) as (_ & _ & Hp). specialize (Hp (x :: l) Hl).
  assert (N1 : NoDup (ids (x :: l))) by (eapply Permutation_NoDup; [symmetry; exact Hp|apply seq_NoDup]).
  pose proof (tour_deep (par (t_nodes t)) [] (x :: l) (history_within T F ops _ HF Hl) N1 Next 0%Z ltac:(discriminate) ltac:(simpl; lia)) as G.
  unfold tour. destruct (tour_row (par (t_nodes t)) Next 0%Z (x :: l)) as [tr [at_ d']]. apply G.
Qed.
