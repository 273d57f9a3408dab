(** Property theorems: C33, the removal of a last child.  With C33_single_partial this says what every single removal
    from a tree numbered in walk order does. *)
From Coq Require Import Lia Permutation.
From Verif Require Import Base Pointer Index Tree Builder Hist Node Iter Edit Spec SpecSpan SpecEdit SpecRemove Rep Marks Refine TreeRep
  Nav Modify Copy PropsWith PropsEdit.
From Verif Require Stale.
From Verif Require Import PropsSafe.
Local Open Scope N_scope.

Lemma doubled_id T k (x : rose T) : (forall y, In y (preorder x) -> r_id y <> k) -> doubled k x = [x].
Proof.
  induction x as [i kd d sp kids IH] using rose_ind'. intros H. simpl.
  destruct (last_error kids) as [y|] eqn:E; auto.
  assert (H' : forall y, In y (preorder_list kids) -> r_id y <> k) by (intros z Hz; apply H; right; auto). clear H.
  destruct (Nat.eqb_spec (r_id y) k) as [Ey|_].
  { exfalso. apply (H' y); auto. apply preorder_list_top. apply last_error_in; auto. }
  do 2 f_equal. clear E y.
  induction IH as [|x kids Hx _ IHk]; simpl; auto. rewrite Hx, IHk; auto.
  - intros y Hy. apply H'. unfold preorder_list. simpl. apply in_app_iff. auto.
  - intros y Hy. apply H'. unfold preorder_list. simpl. apply in_app_iff. auto.
Qed.
Lemma doubled_ids T k (xs : list (rose T)) : (forall y, In y (preorder_list xs) -> r_id y <> k) -> flat_map (doubled k) xs = xs.
Proof.
  induction xs as [|x xs IH]; intros H; simpl; auto. rewrite doubled_id, IH; auto;
    intros y Hy; apply H; unfold preorder_list; simpl; apply in_app_iff; auto.
Qed.

Lemma pre_app T (l1 l2 : list (rose T)) : length (preorder_list (l1 ++ l2)) = (length (preorder_list l1) + length (preorder_list l2))%nat.
Proof. unfold preorder_list. rewrite flat_map_app, app_length. auto. Qed.

(** Siblings before a removed last one. *)
Lemma edited_up_to T c (y : rose T) : forall ks n s,
  (forall i, (n <= i < n + length (preorder_list ks))%nat -> changed c i = false) ->
  changed c (n + length (preorder_list ks)) = true ->
  exists ks', edited c false false n s (ks ++ [y]) ks' (n + length (preorder_list ks)) (s + total_width ks) true /\
    copied_list s ks ks' (s + total_width ks).
Proof.
  induction ks as [|[i k d sp kids] ks IH]; intros n s Hc Hy.
  - simpl in *. rewrite Nat.add_0_r in *. unfold total_width. simpl. rewrite N.add_0_r. exists []. split; [apply ed_up; auto|constructor].
  - rewrite pre_len in *. rewrite tw_cons. simpl app.
    assert (Hn : false = true \/ changed c n = false) by (right; apply Hc; lia).
    destruct kids as [|z kids].
    + change (length (preorder_list (@nil (rose T)))) with 0%nat in *. rewrite Nat.add_0_l in *.
      destruct (IH (S n) (s + width sp)) as (ks' & H1 & H2).
      { intros j Hj. apply Hc. lia. }
      { replace (S n + length (preorder_list ks))%nat with (n + S (length (preorder_list ks)))%nat by lia. auto. }
      replace (n + S (length (preorder_list ks)))%nat with (S n + length (preorder_list ks))%nat by lia.
      change (total_width (@nil (rose T))) with 0. rewrite N.add_0_r, N.add_assoc.
      exists (Nd n KLeaf d (Span s (s + width sp)) [] :: ks'). split; [apply ed_leaf; auto|].
      econstructor; [constructor|exact H2].
    + destruct (edited_copy T c _ (z :: kids) (le_n _) false false (S n) s) as (kids' & K1 & K2).
      { intros j Hj. right. apply Hc. lia. }
      destruct (IH (S n + length (preorder_list (z :: kids)))%nat (s + total_width (z :: kids))) as (ks' & H1 & H2).
      { intros j Hj. apply Hc. lia. }
      { match goal with |- changed c ?a = true => match type of Hy with changed c ?b = true => replace a with b by lia end end. auto. }
      replace (n + S (length (preorder_list (z :: kids)) + length (preorder_list ks)))%nat
        with (S n + length (preorder_list (z :: kids)) + length (preorder_list ks))%nat by lia.
      rewrite N.add_0_l, N.add_assoc.
      exists (Nd n KOpen d (Span s (last_reach s kids')) kids' :: ks'). split; [eapply ed_node; eauto|].
      econstructor; [constructor; exact K2|exact H2].
Qed.

(** [k] is the last child of some node below [xs]. *)
Definition last_below {T} (k : nat) (xs : list (rose T)) : Prop :=
  exists q ks x, In q (preorder_list xs) /\ r_kids q = ks ++ [x] /\ r_id x = k.

Lemma edited_last_child T c k : (forall i, changed c i = true <-> i = k) ->
  forall w (xs : list (rose T)), (length (preorder_list xs) <= w)%nat -> forall top n s,
  numbered n xs -> last_below k xs ->
  let ys := flat_map (doubled k) xs in
  exists xs', edited c top false n s xs xs' (n + length (preorder_list ys)) (s + total_width ys) false /\
    copied_list s ys xs' (s + total_width ys) /\ ys <> [] /\ (length (preorder_list xs) < length (preorder_list ys))%nat.
Proof.
  intros Hc. assert (Hcn : forall i, i <> k -> changed c i = false).
  { intros i Hi. destruct (changed c i) eqn:E; auto. apply Hc in E. congruence. }
  induction w as [|w IH]; intros xs Hw top n s Hn (q & ks & x & Hq & Eq & Ex) ys.
  { destruct xs as [|[? ? ? ? ?] xs]; [destruct Hq|rewrite pre_len in Hw; lia]. }
  destruct xs as [|[i kd d sp kids] xs]; [destruct Hq|]. pose proof Hn as Hn0. rewrite pre_len in Hw.
  destruct (numbered_cons _ _ _ _ _ _ _ _ Hn) as (-> & Nk & Nx).
  assert (Wk : forall n' (zs : list (rose T)), (forall j, (n' <= j < n' + length (preorder_list zs))%nat -> j <> k) -> numbered n' zs -> flat_map (doubled k) zs = zs).
  { intros n' zs Hj Nz. apply doubled_ids. intros y Hy. apply Hj. eapply numbered_in; eauto. }
  assert (Hxq : In x (r_kids q)) by (rewrite Eq; apply in_app_iff; simpl; auto).
  apply in_pre_cons in Hq as [->|[Hq|Hq]].
  - (* the parent is the head *)
    cbn [r_kids] in Eq, Hxq. subst kids.
    assert (Nx' : numbered (S n) ks /\ numbered (S n + length (preorder_list ks)) [x]).
    { clear - Nk. unfold numbered in *. rewrite pre_app in Nk. unfold preorder_list in Nk. rewrite flat_map_app, map_app, seq_app in Nk.
      apply app_eq_app in Nk as (r & [[E1 E2]|[E1 E2]]);
        (assert (r = []) by (apply (f_equal (@length nat)) in E1; rewrite app_length, map_length, seq_length in E1; destruct r; auto; simpl in E1; unfold preorder_list in E1; lia));
        subst r; rewrite app_nil_r in E1; simpl app in E2; split; auto. }
    destruct Nx' as [Nks Nxx].
    assert (Ek : k = (S n + length (preorder_list ks))%nat).
    { destruct x as [j ? ? ? ?]. apply numbered_cons in Nxx as (-> & _). simpl in Ex. auto. }
    destruct (edited_up_to T c x ks (S n) s) as (ks' & U1 & U2).
    { intros j Hj. apply Hcn. lia. }
    { apply Hc. auto. }
    rewrite <- Ek in U1.
    set (whole := Nd n kd d sp (ks ++ [x])) in *.
    destruct (edited_copy T c _ (whole :: xs) (le_n _) top true k (s + total_width ks)) as (xs' & H1 & H2).
    { intros j Hj. destruct (Nat.eq_dec j k); auto. }
    assert (Ey : ys = Nd n kd d (match ks with [] => Span 0 0 | _ => sp end) ks :: whole :: xs).
    { unfold ys, whole. cbn [flat_map doubled]. rewrite last_error_snoc, Ex, Nat.eqb_refl, removelast_last.
      rewrite (Wk (S n + length (preorder_list (ks ++ [x])))%nat xs); auto.
      intros j Hj. rewrite pre_app in Hj. destruct x. rewrite pre_len in Hj. lia. }
    rewrite Ey. exists (Nd n KOpen d (Span s (last_reach s ks')) ks' :: xs').
    rewrite pre_len, tw_cons.
    replace (n + S (length (preorder_list ks) + length (preorder_list (whole :: xs))))%nat with (k + length (preorder_list (whole :: xs)))%nat by lia.
    assert (Ew : (match ks with [] => width (match ks with [] => Span 0 0 | _ => sp end) | _ => 0 end) + total_width ks = total_width ks).
    { destruct ks; [reflexivity|lia]. }
    rewrite Ew, N.add_assoc. split; [|split; [|split]].
    + unfold whole. destruct ks as [|z ks].
      * cbn [app] in *. eapply ed_again; [right; apply Hcn; lia|exact U1|exact H1].
      * cbn [app] in *. eapply ed_again; [right; apply Hcn; lia|exact U1|exact H1].
    + econstructor; [|exact H2]. destruct ks as [|z ks].
      * assert (ks' = []) as -> by (inversion U2; auto). unfold last_reach. cbn [last_error].
        change (s + total_width []) with (s + width (Span 0 0)).
        assert (Es : Span s s = Span s (s + width (Span 0 0))) by (unfold width; simpl; f_equal; lia).
        rewrite Es. constructor.
      * constructor. exact U2.
    + discriminate.
    + unfold whole. rewrite !pre_len. lia.
  - (* below the head *)
    assert (Hlb : last_below k kids) by (exists q, ks, x; auto).
    assert (Hkin : (S n <= k < S n + length (preorder_list kids))%nat).
    { assert (Hxin : In x (preorder_list kids)) by (eapply preorder_list_kid; eauto).
      rewrite <- Ex. apply (numbered_in _ _ _ _ Nk Hxin). }
    destruct (IH kids ltac:(lia) false (S n) s Nk Hlb) as (kids' & K1 & K2 & K3 & K4). cbv zeta in *.
    destruct (last_error kids) as [y|] eqn:Ela;
      [|destruct kids as [|? kids _] using rev_ind; [destruct Hq|rewrite last_error_snoc in Ela; discriminate]].
    assert (Hne : r_id y <> k).
    { (* a last child of the head with number k would have two parents *)
      intros Ey. destruct (Stale.last_error_split _ _ Ela) as [k0 E0].
      assert (Hy : In y (preorder_list kids)) by (apply preorder_list_top; apply last_error_in; auto).
      assert (Hxin : In x (preorder_list kids)) by (exact (preorder_list_kid kids q x Hq Hxq)).
      assert (ND : NoDup (map r_id (preorder_list kids))) by (rewrite Nk; apply seq_NoDup).
      revert ND. rewrite E0. unfold preorder_list. rewrite flat_map_app, map_app. simpl. rewrite app_nil_r. intros ND.
      destruct y as [j ky dy sy ksy]. simpl in Ey. subst j. cbn [preorder map r_id] in ND.
      rewrite E0 in Hq. unfold preorder_list in Hq. rewrite flat_map_app, in_app_iff in Hq. simpl in Hq. rewrite app_nil_r in Hq.
      apply NoDup_app_iff in ND as (N1 & N2 & N3). inversion N2 as [|? ? N4 N5]; subst.
      destruct Hq as [Hq|[<-|Hq]].
      - apply (N3 (r_id x)); [|left; auto]. apply in_map. eapply (preorder_list_kid k0 q x); eauto.
      - apply N4. apply in_map. cbn [r_kids] in Hxq. apply preorder_list_top; auto.
      - apply N4. apply in_map. eapply (preorder_list_kid ksy q x); eauto. }
    assert (Ey : ys = Nd n kd d sp (flat_map (doubled k) kids) :: xs).
    { unfold ys. cbn [flat_map doubled]. rewrite Ela. destruct (Nat.eqb_spec (r_id y) k); [congruence|]. simpl. f_equal.
      apply (Wk (S n + length (preorder_list kids))%nat xs); auto. lia. }
    destruct (flat_map (doubled k) kids) as [|z zs] eqn:Ez; [congruence|].
    set (n1 := (S n + length (preorder_list (z :: zs)))%nat) in *.
    destruct (edited_copy T c _ xs (le_n _) top false n1 (s + total_width (z :: zs))) as (xs' & X1 & X2).
    { intros j Hj. right. apply Hcn. unfold n1 in Hj. lia. }
    exists (Nd n KOpen d (Span s (last_reach s kids')) kids' :: xs'). rewrite Ey, !pre_len, tw_cons, N.add_0_l, N.add_assoc.
    replace (n + S (length (preorder_list (z :: zs)) + length (preorder_list xs)))%nat with (n1 + length (preorder_list xs))%nat by (unfold n1; lia).
    split; [|split; [|split]].
    + destruct kids as [|k1 kids]; [discriminate|]. eapply ed_node; [right; apply Hcn; lia|exact K1|exact X1].
    + econstructor; [constructor; exact K2|exact X2].
    + discriminate.
    + lia.
  - (* after the head *)
    assert (Hlb : last_below k xs) by (exists q, ks, x; auto).
    assert (Hxin : In x (preorder_list xs)) by (eapply preorder_list_kid; eauto).
    pose proof (numbered_in _ _ _ _ Nx Hxin) as B1. rewrite Ex in B1.
    assert (Ek : doubled k (Nd n kd d sp kids) = [Nd n kd d sp kids]).
    { apply doubled_id. intros y [<-|Hy]; [simpl; lia|]. pose proof (numbered_in _ _ _ _ Nk Hy). lia. }
    destruct (IH xs ltac:(lia) top (S n + length (preorder_list kids))%nat (s + (match kids with [] => width sp | _ => 0 end) + total_width kids) Nx Hlb)
      as (xs' & X1 & X2 & X3 & X4).
    cbv zeta in *.
    assert (Ey : ys = Nd n kd d sp kids :: flat_map (doubled k) xs) by (unfold ys; cbn [flat_map]; rewrite Ek; auto).
    destruct kids as [|y kids].
    + exists (Nd n KLeaf d (Span s (s + width sp)) [] :: xs'). rewrite Ey, !pre_len, tw_cons.
      change (total_width (@nil (rose T))) with 0 in *. rewrite !N.add_0_r in *. change (length (preorder_list (@nil (rose T)))) with 0%nat in *. rewrite !Nat.add_0_r in *.
      rewrite N.add_assoc. replace (n + S (0 + length (preorder_list (flat_map (doubled k) xs))))%nat with (S n + length (preorder_list (flat_map (doubled k) xs)))%nat by lia.
      split; [|split; [|split]].
      * apply ed_leaf; auto. right. apply Hcn. lia.
      * econstructor; [constructor|exact X2].
      * discriminate.
      * simpl; lia.
    + rewrite N.add_0_r in *.
      destruct (edited_copy T c _ (y :: kids) (le_n _) false false (S n) s) as (kids' & K1 & K2).
      { intros j Hj. right. apply Hcn. lia. }
      exists (Nd n KOpen d (Span s (last_reach s kids')) kids' :: xs'). rewrite Ey, !(pre_len T n), tw_cons, N.add_0_l, N.add_assoc.
      replace (n + S (length (preorder_list (y :: kids)) + length (preorder_list (flat_map (doubled k) xs))))%nat
        with (S n + length (preorder_list (y :: kids)) + length (preorder_list (flat_map (doubled k) xs)))%nat by lia.
      split; [|split; [|split]].
      * eapply ed_node; eauto. right. apply Hcn. lia.
      * econstructor; [constructor; exact K2|exact X2].
      * discriminate.
      * lia.
Qed.

(** Removing a last child that is not a root, from a tree numbered in walk order: the tree gets *bigger*.  Its parent is made
    twice, first without that child and then again in full; or the result does not fit and the call fails. *)
Theorem C33_last_partial : forall T F (t : tree T) l q ks x fuel, made F t l -> in_order l ->
  In (Some q, ks ++ [x]) (sibling_lists l) ->
  let big := flat_map (doubled (r_id x)) l in
  (length (preorder_list big) + 2 <= fuel)%nat ->
  (length (preorder_list l) < length (preorder_list big))%nat /\
  (N.of_nat (length (preorder_list big)) <= int_max F (fl_width F) /\ total_width big <= ix_max F ->
    exists t' l' e, modify fuel F (changeset_remove (r_id x) changeset_new) t = Ok t' /\ made F t' l' /\
      copied_list 0 big l' e /\ in_order l' /\ t_span t' = Span 0 e /\ (fits F t' -> presents F t' l') /\
      (tree_len t < tree_len t')%nat) /\
  (~ (N.of_nat (length (preorder_list big)) <= int_max F (fl_width F) /\ total_width big <= ix_max F) ->
    modify fuel F (changeset_remove (r_id x) changeset_new) t = Err Overflow).
Proof.
  intros T F t l q ks x fuel Hm Ho Hs big Hfu. destruct (made_facts T F t l Hm) as (HF & Hr & Hz & Hl).
  assert (Hq : In q (preorder_list l)) by (eapply parent_in; eauto).
  assert (Ek : r_kids q = ks ++ [x]).
  { destruct Hs as [E|Hi]; [discriminate|]. apply in_map_iff in Hi as (q' & E & _). congruence. }
  assert (Hxin : In x (preorder_list l)) by (eapply sibling_list_in; [exact Hs|apply in_elt]).
  assert (Hord : numbered 0 l) by exact Ho.
  pose proof (numbered_in _ _ _ _ Hord Hxin) as Hb.
  assert (Hc : forall i, changed [r_id x] i = true <-> i = r_id x).
  { intros i. unfold changed. simpl. rewrite orb_false_r, Nat.eqb_eq. tauto. }
  destruct (edited_last_child T [r_id x] (r_id x) Hc _ l (le_n _) true 0 0%N Hord) as (l' & He & Hcp & _ & Hlt).
  { exists q, ks, x. auto. }
  cbv zeta in *. fold big in He, Hcp, Hlt. rewrite N.add_0_l in *. rewrite Nat.add_0_l in *.
  destruct fuel as [|fuel]; [lia|].
  pose proof (edited_size _ _ _ _ _ _ _ _ _ _ _ He) as Es. rewrite Nat.add_0_l in Es.
  split; [lia|].
  assert (Hp : pointers F [r_id x]).
  { intros i [<-|[]]. pose proof (preorder_id_lt _ _ _ Hr Hxin). lia. }
  destruct (modify_exact T F t l [r_id x] HF Hr Hz (pointers_hits F [r_id x] Hp) l' _ _ He) as [[B G]|[B G]].
  - split; [intros _|intros C; exfalso; apply C; exact B].
    destruct (G fuel ltac:(lia)) as (t' & E & S & R & _). exists t', l', (total_width big). split; [exact E|].
    split; [eapply made_modified; eauto|]. split; auto.
    split; [apply (edited_numbered _ _ _ _ _ _ _ _ _ _ _ He)|]. split; auto. split.
    + intros Hfit. apply rep_presents; auto. eapply edited_kinds; eauto.
    + unfold tree_len. rewrite (tr_length _ _ Hr), (tr_length _ _ R). lia.
  - split; [intros C; exfalso; apply B; exact C|]. intros _. apply (G fuel ltac:(lia)).
Qed.
Print Assumptions C33_last_partial.

(** So one removal is right exactly when the node is a root or has a later sibling. *)
Theorem C33_exact_partial : forall T F (t : tree T) l k fuel t', made F t l -> fits F t -> in_order l ->
  (total_width l <= ix_max F)%N -> (k < length (preorder_list l))%nat -> (2 * length (preorder_list l) + 2 <= fuel)%nat ->
  modify fuel F (changeset_remove k changeset_new) t = Ok t' ->
  ((exists l' e, copied_list 0 (flat_map (without k) l) l' e /\ tree_len t' = length (preorder_list l') /\ presents F t' l') <->
   has_successor k l).
Proof.
  intros T F t l k fuel t' Hm Hfit Ho Hw Hk Hfu E. destruct (made_facts T F t l Hm) as (HF & Hr & Hz & Hl). split.
  - intros (l' & e & Hc & Hlen & _).
    destruct (preorder_of_id t l k Hr) as (x & Hx & Ex); [rewrite (tr_length _ _ Hr); auto|].
    destruct (in_sibling_lists _ _ Hx) as (p & s1 & s2 & Hs).
    destruct p as [q|]; [|exists None, s1, x, s2; auto].
    destruct s2 as [|y s2]; [|exists (Some q), s1, x, (y :: s2); split; auto; split; auto; right; discriminate].
    exfalso.
    assert (Hbig : (length (preorder_list (flat_map (doubled k) l)) <= 2 * length (preorder_list l))%nat).
    { clear. induction l as [|x l IH]; [simpl; lia|].
      assert (G : forall x : rose T, (length (preorder_list (doubled k x)) <= 2 * length (preorder x))%nat).
      { clear. induction x as [i kd d sp kids IH] using rose_ind'. cbn [doubled].
        destruct (last_error kids) as [y|] eqn:El; [|unfold preorder_list; cbn [flat_map]; rewrite app_nil_r; lia].
        destruct (Nat.eqb (r_id y) k).
        - destruct (Stale.last_error_split _ _ El) as [k0 ->]. rewrite removelast_last, !pre_len, pre_app.
          change (length (preorder_list (@nil (rose T)))) with 0%nat.
          cbn [preorder length]. change (flat_map preorder (k0 ++ [y])) with (preorder_list (k0 ++ [y])). rewrite pre_app.
          destruct y as [? ? ? ? ?]. rewrite pre_len. lia.
        - rewrite pre_len. change (length (preorder_list (@nil (rose T)))) with 0%nat. cbn [preorder length].
          assert (length (preorder_list (flat_map (doubled k) kids)) <= 2 * length (flat_map preorder kids))%nat; [|lia].
          clear El. induction IH as [|z kids Hz _ IHk]; [simpl; lia|]. cbn [flat_map]. rewrite pre_app, app_length. lia. }
      cbn [flat_map]. rewrite pre_app. specialize (G x).
      change (preorder_list (x :: l)) with (preorder x ++ preorder_list l). rewrite app_length. lia. }
    rewrite <- Ex in *.
    destruct (C33_last_partial T F t l q s1 x fuel Hm Ho Hs ltac:(cbv zeta; lia)) as (_ & G1 & G2).
    cbv zeta in *.
    assert (B : forall a b c d : N, (a <= b /\ c <= d) \/ ~ (a <= b /\ c <= d)).
    { intros a b c d. destruct (N.le_gt_cases a b), (N.le_gt_cases c d); try (left; tauto); right; lia. }
    match type of G1 with ?a <= ?b /\ ?c <= ?d -> _ => specialize (B a b c d) end.
    destruct B as [B|B]; [|rewrite (G2 B) in E; discriminate].
    destruct (G1 B) as (t2 & l2 & e2 & E2 & _ & _ & _ & _ & _ & Hbigger). rewrite E in E2. injection E2 as <-.
    pose proof (without_len T (r_id x) l) as Hwl.
    assert (length (preorder_list l') = length (preorder_list (flat_map (without (r_id x)) l))) as El'.
    { clear - Hc. revert Hc. generalize (flat_map (without (r_id x)) l) 0. intros l0 s0 Hc.
      assert (G : (forall s (a a' : rose T) e, copied s a a' e -> length (preorder a') = length (preorder a)) /\
        (forall s (a a' : list (rose T)) e, copied_list s a a' e -> length (preorder_list a') = length (preorder_list a))).
      { apply copied_both; intros; simpl in *; auto. unfold preorder_list in *. simpl. rewrite !app_length. lia. }
      eapply (proj2 G); eauto. }
    unfold tree_len in *. rewrite (tr_length _ _ Hr) in Hbigger. lia.
  - intros Hsuc. destruct (C33_single_partial T F t l k fuel Hm Hfit Ho Hw Hsuc ltac:(lia)) as (t2 & l' & e & E2 & _ & P & _ & C & _).
    rewrite E in E2. injection E2 as <-. exists l', e. split; auto. split; [apply P|auto].
Qed.
Print Assumptions C33_exact_partial.

(** The hypotheses at work: a node with two children, the last of which is removed. *)
Example C33_last_inhabited : exists (ops : list (op nat)) t l q ks x t',
  finished flavor_default ops t l /\ Forall (op_wf flavor_default) ops /\ in_order l /\
  In (Some q, ks ++ [x]) (sibling_lists l) /\ ks <> [] /\
  modify 20 flavor_default (changeset_remove (r_id x) changeset_new) t = Ok t' /\ tree_len t = 3%nat /\ tree_len t' = 5%nat.
Proof.
  set (ops := [OOpen 0; OToken 1 3; OToken 2 4; OClose]%nat : list (op nat)).
  set (q := Nd 0 KOpen 0%nat (Span 0 7) [Nd 1 KLeaf 1%nat (Span 0 3) []; Nd 2 KLeaf 2%nat (Span 3 7) []]).
  exists ops, (tree_so_far flavor_default ops), [q], q, [Nd 1 KLeaf 1%nat (Span 0 3) []], (Nd 2 KLeaf 2%nat (Span 3 7) []). eexists.
  split; [compute_finished|]. split; [repeat constructor; vm_compute; auto; discriminate|].
  split; [reflexivity|]. split; [right; left; reflexivity|]. split; [discriminate|].
  split; [vm_compute; reflexivity|]. split; vm_compute; reflexivity.
Qed.
