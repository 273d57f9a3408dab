(** Edits that hit nothing, or one node: the outcome is a copy. *)
From Coq Require Import Lia Permutation.
From Verif Require Import Base Pointer Index Tree Builder Hist Node Iter Edit Spec SpecSpan SpecEdit Rep Marks Refine TreeRep
  Nav Modify.
Local Open Scope N_scope.

Lemma tw_cons T i k d sp kids (xs : list (rose T)) :
  total_width (Nd i k d sp kids :: xs) = (match kids with [] => width sp | _ => 0 end) + total_width kids + total_width xs.
Proof.
  assert (A : forall l1 l2 : list (rose T),
    fold_right (fun x s => width (r_span x) + s) 0 (filter (fun x => negb (has_kids x)) (l1 ++ l2)) =
    fold_right (fun x s => width (r_span x) + s) 0 (filter (fun x => negb (has_kids x)) l1) +
    fold_right (fun x s => width (r_span x) + s) 0 (filter (fun x => negb (has_kids x)) l2)).
  { induction l1 as [|x l1 IH]; intros l2; simpl; auto. destruct (negb (has_kids x)); simpl; rewrite IH; lia. }
  unfold total_width, preorder_list. cbn [flat_map preorder]. rewrite <- app_comm_cons. cbn [filter]. unfold has_kids at 1. cbn [r_kids].
  destruct kids as [|y kids]; cbn [negb fold_right]; rewrite A; cbn [r_span]; simpl; lia.
Qed.

(** ** Nothing is hit *)
Lemma edited_copy T c : forall w (xs : list (rose T)), (length (preorder_list xs) <= w)%nat -> forall top forced n s,
  (forall i, (n <= i < n + length (preorder_list xs))%nat -> (forced = true /\ i = n) \/ changed c i = false) ->
  exists xs', edited c top forced n s xs xs' (n + length (preorder_list xs)) (s + total_width xs) false /\
    copied_list s xs xs' (s + total_width xs).
Proof.
  induction w as [|w IH]; intros xs Hw top forced n s Hc.
  - destruct xs as [|[i k d sp kids] xs]; [|rewrite pre_len in Hw; lia]. exists [].
    simpl. rewrite Nat.add_0_r. unfold total_width. simpl. rewrite N.add_0_r. split; constructor.
  - destruct xs as [|[i k d sp kids] xs].
    { exists []. simpl. rewrite Nat.add_0_r. unfold total_width. simpl. rewrite N.add_0_r. split; constructor. }
    rewrite pre_len in *. rewrite tw_cons.
    assert (Hn : forced = true \/ changed c n = false) by (destruct (Hc n ltac:(lia)) as [[-> _]| ->]; auto).
    destruct kids as [|y kids].
    + destruct (IH xs ltac:(lia) top false (S n) (s + width sp)) as (xs' & H1 & H2).
      { intros j Hj. right. destruct (Hc j ltac:(lia)) as [[_ ->]|E]; auto. lia. }
      exists (Nd n KLeaf d (Span s (s + width sp)) [] :: xs').
      replace (n + S (length (preorder_list (@nil (rose T))) + length (preorder_list xs)))%nat with (S n + length (preorder_list xs))%nat by (simpl; lia).
      change (total_width (@nil (rose T))) with 0. rewrite N.add_0_r, N.add_assoc. split.
      * apply ed_leaf; auto.
      * econstructor; [constructor|exact H2].
    + destruct (IH (y :: kids) ltac:(lia) false false (S n) s) as (kids' & K1 & K2).
      { intros j Hj. right. destruct (Hc j ltac:(lia)) as [[_ ->]|E]; auto. lia. }
      destruct (IH xs ltac:(lia) top false (S n + length (preorder_list (y :: kids)))%nat (s + total_width (y :: kids))) as (xs' & H1 & H2).
      { intros j Hj. right. destruct (Hc j ltac:(lia)) as [[_ ->]|E]; auto. lia. }
      exists (Nd n KOpen d (Span s (last_reach s kids')) kids' :: xs').
      replace (n + S (length (preorder_list (y :: kids)) + length (preorder_list xs)))%nat with (S n + length (preorder_list (y :: kids)) + length (preorder_list xs))%nat by lia.
      rewrite N.add_0_l, N.add_assoc. split.
      * eapply ed_node; eauto.
      * econstructor; [constructor; exact K2|exact H2].
Qed.

(** ** One node is hit *)
Definition may_go {T} (k : nat) (top : bool) (xs : list (rose T)) : Prop :=
  forall p s1 x s2, In (p, s1 ++ x :: s2) (sibling_lists xs) -> r_id x = k -> (p = None /\ top = true) \/ s2 <> [].

Lemma numbered_cons T n i k d sp kids (xs : list (rose T)) : numbered n (Nd i k d sp kids :: xs) ->
  i = n /\ numbered (S n) kids /\ numbered (S n + length (preorder_list kids)) xs.
Proof.
  unfold numbered. rewrite pre_len. unfold preorder_list. cbn [flat_map preorder]. rewrite <- app_comm_cons. cbn [map r_id seq].
  intros E. injection E as -> E. split; auto. rewrite map_app, seq_app in E.
  apply app_eq_app in E as (r & [[E1 E2]|[E1 E2]]).
  - assert (r = []). { apply (f_equal (@length nat)) in E1. rewrite app_length, map_length, seq_length in E1. destruct r; auto; simpl in E1; lia. }
    subst. rewrite app_nil_r in E1. simpl in E2. auto.
  - assert (r = []). { apply (f_equal (@length nat)) in E1. rewrite app_length, map_length, seq_length in E1. destruct r; auto; simpl in E1; lia. }
    subst. rewrite app_nil_r in E1. simpl in E2. auto.
Qed.
Lemma numbered_in T n (xs : list (rose T)) x : numbered n xs -> In x (preorder_list xs) -> (n <= r_id x < n + length (preorder_list xs))%nat.
Proof. intros H Hx. apply (in_map r_id) in Hx. rewrite H in Hx. apply in_seq in Hx. auto. Qed.

Lemma without_id T k (x : rose T) : (forall y, In y (preorder x) -> r_id y <> k) -> without k x = [x].
Proof.
  induction x as [i kd d sp kids IH] using rose_ind'. intros H. simpl.
  destruct (Nat.eqb_spec i k) as [->|_]; [exfalso; apply (H _ (or_introl eq_refl)); auto|].
  do 2 f_equal. assert (H' : forall y, In y (preorder_list kids) -> r_id y <> k) by (intros y Hy; apply H; right; auto). clear H.
  induction IH as [|x kids Hx _ IHk]; simpl; auto. rewrite Hx, IHk; auto.
  - intros y Hy. apply H'. unfold preorder_list. simpl. apply in_app_iff. auto.
  - intros y Hy. apply H'. unfold preorder_list. simpl. apply in_app_iff. auto.
Qed.
Lemma without_ids T k (xs : list (rose T)) : (forall y, In y (preorder_list xs) -> r_id y <> k) -> flat_map (without k) xs = xs.
Proof.
  induction xs as [|x xs IH]; intros H; simpl; auto. rewrite without_id, IH; auto;
    intros y Hy; apply H; unfold preorder_list; simpl; apply in_app_iff; auto.
Qed.

Lemma may_go_kids T k top i kd d sp kids (xs : list (rose T)) : may_go k top (Nd i kd d sp kids :: xs) -> may_go k false kids.
Proof.
  intros H p s1 x s2 Hi Ek. right. destruct Hi as [E|Hi].
  - injection E as <- E. destruct (H (Some (Nd i kd d sp kids)) s1 x s2) as [[? _]|?]; auto; [|discriminate].
    right. apply in_map_iff. exists (Nd i kd d sp kids). simpl. rewrite E. split; auto. 
  - destruct (H p s1 x s2) as [[-> _]|?]; auto.
    + right. apply in_map_iff in Hi as (q & E & Hq). apply in_map_iff. exists q. split; auto. apply in_pre_cons. auto.
    + apply in_map_iff in Hi as (q & E & Hq). discriminate.
Qed.
Lemma may_go_rest T k top y (xs : list (rose T)) : may_go k top (y :: xs) -> may_go k top xs.
Proof.
  intros H p s1 x s2 Hi Ek. destruct Hi as [E|Hi].
  - injection E as <- E. destruct (H None (y :: s1) x s2) as [?|?]; auto. left. rewrite E. auto.
  - destruct (H p s1 x s2) as [?|?]; auto.
    right. apply in_map_iff in Hi as (q & E & Hq). apply in_map_iff. exists q. split; auto. unfold preorder_list in *. simpl. apply in_app_iff. auto.
Qed.

Lemma edited_single T c k : (forall i, changed c i = true <-> i = k) ->
  forall w (xs : list (rose T)), (length (preorder_list xs) <= w)%nat -> forall top n s,
  numbered n xs -> may_go k top xs -> (n <= k < n + length (preorder_list xs))%nat ->
  let ys := flat_map (without k) xs in
  exists xs', edited c top false n s xs xs' (n + length (preorder_list ys)) (s + total_width ys) false /\
    copied_list s ys xs' (s + total_width ys) /\ (top = false -> ys <> [] /\ (k < n + length (preorder_list ys))%nat).
Proof.
  intros Hc. assert (Hcn : forall i, i <> k -> changed c i = false).
  { intros i Hi. destruct (changed c i) eqn:E; auto. apply Hc in E. congruence. }
  induction w as [|w IH]; intros xs Hw top n s Hn Hg Hk ys.
  { destruct xs as [|[? ? ? ? ?] xs]; [simpl in Hk; lia|rewrite pre_len in Hw; lia]. }
  destruct xs as [|[i kd d sp kids] xs]; [simpl in Hk; lia|]. rewrite pre_len in *.
  destruct (numbered_cons _ _ _ _ _ _ _ _ Hn) as (-> & Nk & Nx).
  assert (Wk : forall n' (zs : list (rose T)), (forall j, (n' <= j < n' + length (preorder_list zs))%nat -> j <> k) -> numbered n' zs -> flat_map (without k) zs = zs).
  { intros n' zs Hj Nz. apply without_ids. intros y Hy. apply Hj. eapply numbered_in; eauto. }
  destruct (Nat.eqb_spec n k) as [->|Hnk].
  - assert (Ey : ys = xs). { unfold ys. simpl. rewrite Nat.eqb_refl. simpl. eapply Wk; [|exact Nx]. lia. }
    rewrite Ey. destruct xs as [|y xs].
    + destruct (Hg None [] (Nd k kd d sp kids) []) as [[_ ->]|?]; [left; reflexivity|reflexivity| |congruence].
      exists []. simpl. rewrite Nat.add_0_r. unfold total_width. simpl. rewrite N.add_0_r. split; [apply ed_last; apply Hc; auto|]. split; [constructor|discriminate].
    + destruct (edited_copy T c _ (y :: xs) (le_n _) top true k s) as (xs' & E & C).
      { intros j Hj. destruct (Nat.eq_dec j k); auto. }
      exists xs'. split; [apply ed_skip; [apply Hc; auto|auto]|]. split; auto. intros _. split; [discriminate|]. destruct y. rewrite pre_len. lia.
  - assert (Ey : ys = Nd n kd d sp (flat_map (without k) kids) :: flat_map (without k) xs).
    { unfold ys. simpl. destruct (Nat.eqb_spec n k); [lia|]. reflexivity. }
    destruct (Nat.ltb_spec k (S n + length (preorder_list kids))) as [Hin|Hout].
    + destruct kids as [|y kids]; [simpl in Hin; lia|].
      destruct (IH (y :: kids) ltac:(lia) false (S n) s Nk (may_go_kids _ _ _ _ _ _ _ _ _ Hg) ltac:(lia)) as (kids' & K1 & K2 & K3).
      destruct (K3 eq_refl) as [K4 K5]. clear K3. cbv zeta in *.
      rewrite (Wk (S n + length (preorder_list (y :: kids)))%nat xs) in Ey; [|lia|exact Nx].
      destruct (flat_map (without k) (y :: kids)) as [|z zs] eqn:Ez; [congruence|].
      set (n1 := (S n + length (preorder_list (z :: zs)))%nat) in *.
      destruct (edited_copy T c _ xs (le_n _) top false n1 (s + total_width (z :: zs))) as (xs' & X1 & X2).
      { intros j Hj. right. apply Hcn. lia. }
      exists (Nd n KOpen d (Span s (last_reach s kids')) kids' :: xs'). rewrite Ey, pre_len, tw_cons, N.add_0_l, N.add_assoc.
      replace (n + S (length (preorder_list (z :: zs)) + length (preorder_list xs)))%nat with (n1 + length (preorder_list xs))%nat by (unfold n1; lia).
      split; [|split].
      * eapply ed_node; eauto.
      * econstructor; [constructor; exact K2|exact X2].
      * intros _. split; [discriminate|]. lia.
    + rewrite (Wk (S n) kids) in Ey; [|lia|exact Nk].
      destruct (IH xs ltac:(lia) top (S n + length (preorder_list kids))%nat (s + (match kids with [] => width sp | _ => 0 end) + total_width kids) Nx (may_go_rest _ _ _ _ _ Hg) ltac:(lia)) as (xs' & X1 & X2 & X3).
      cbv zeta in *. destruct kids as [|y kids].
      * exists (Nd n KLeaf d (Span s (s + width sp)) [] :: xs'). rewrite Ey, pre_len, tw_cons.
        change (total_width (@nil (rose T))) with 0 in *. rewrite !N.add_0_r in *. change (length (preorder_list (@nil (rose T)))) with 0%nat in *. rewrite !Nat.add_0_r in *.
        rewrite N.add_assoc. replace (n + S (0 + length (preorder_list (flat_map (without k) xs))))%nat with (S n + length (preorder_list (flat_map (without k) xs)))%nat by lia.
        split; [|split].
        -- apply ed_leaf; auto.
        -- econstructor; [constructor|exact X2].
        -- intros Ht. destruct (X3 Ht). split; [discriminate|]. simpl in *. lia.
      * rewrite N.add_0_r in *.
        destruct (edited_copy T c _ (y :: kids) (le_n _) false false (S n) s) as (kids' & K1 & K2).
        { intros j Hj. right. apply Hcn. lia. }
        exists (Nd n KOpen d (Span s (last_reach s kids')) kids' :: xs'). rewrite Ey, pre_len, tw_cons, N.add_0_l, N.add_assoc.
        replace (n + S (length (preorder_list (y :: kids)) + length (preorder_list (flat_map (without k) xs))))%nat
          with (S n + length (preorder_list (y :: kids)) + length (preorder_list (flat_map (without k) xs)))%nat by lia.
        split; [|split].
        -- eapply ed_node; eauto.
        -- econstructor; [constructor; exact K2|exact X2].
        -- intros Ht. destruct (X3 Ht). split; [discriminate|]. lia.
Qed.

Lemma without_width T k (xs : list (rose T)) : forall w, (length (preorder_list xs) <= w)%nat ->
  (forall y, In y (preorder_list xs) -> r_kids y <> [] -> flat_map (without k) (r_kids y) <> []) ->
  total_width (flat_map (without k) xs) <= total_width xs.
Proof.
  intros w; revert xs. induction w as [|w IH]; intros xs Hw Hne.
  { destruct xs as [|[? ? ? ? ?] xs]; [simpl; lia|rewrite pre_len in Hw; lia]. }
  destruct xs as [|[i kd d sp kids] xs]; [simpl; lia|]. rewrite pre_len in *. simpl. rewrite tw_cons.
  assert (A : total_width (flat_map (without k) xs) <= total_width xs).
  { apply IH; [lia|]. intros y Hy. apply Hne. apply in_pre_cons. auto. }
  destruct (Nat.eqb_spec i k) as [->|_]; [simpl; lia|]. simpl. rewrite tw_cons.
  assert (B : total_width (flat_map (without k) kids) <= total_width kids).
  { apply IH; [lia|]. intros y Hy. apply Hne. apply in_pre_cons. auto. }
  destruct kids as [|y kids]; [simpl in *; lia|].
  specialize (Hne (Nd i kd d sp (y :: kids)) ltac:(apply in_pre_cons; auto) ltac:(discriminate)). cbn [r_kids] in Hne.
  destruct (flat_map (without k) (y :: kids)); [congruence|]. lia.
Qed.
