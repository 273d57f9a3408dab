(** Walks that start at a node, in every tree from a builder. *)
From Coq Require Import Lia Permutation.
From Verif Require Import Base Pointer Index Tree Builder Hist Node Iter Edit Spec SpecReads SpecShape SpecTour SpecOnward Rep Refine TreeRep Enum Walk WalkTree AllHist StepFacts AllPlaced Modify PropsTree PropsSafe
  AllReads Nav Settle Shape Tour PropsTour.
Open Scope nat_scope.

(** ** Places *)
Section Places.
Context {T : Type}.
Implicit Types (x y : rose T) (l s : list (rose T)) (c : place T).

Lemma located_exists l p s1 x s2 : In (p, s1 ++ x :: s2) (sibling_lists l) -> exists c, located l ((x, s2) :: c).
Proof.
  assert (G : forall y, In y (preorder_list l) -> exists s c, located l ((y, s) :: c)).
  { intros y Hy. destruct (ancestry_exists l y Hy) as (ch & H). clear Hy. induction H as [y H|y z ch H (s & c & IH) Hy].
    - apply in_split in H as (a & b & ->). exists b, []. econstructor. eauto.
    - apply in_split in Hy as (a & b & E). exists b, ((z, s) :: c). econstructor; eauto. }
  intros [E|H].
  - injection E as <- E. exists []. econstructor. eauto.
  - apply in_map_iff in H as (y & E & Hy). injection E as <- E. destruct (G y Hy) as (s & c & Hc). exists ((y, s) :: c). econstructor; eauto.
Qed.
Lemma located_row l x s2 c : located l ((x, s2) :: c) -> exists p s1, In (p, s1 ++ x :: s2) (sibling_lists l) /\ In x (preorder_list l).
Proof.
  remember ((x, s2) :: c) as c0. intros H. revert x s2 c Heqc0. induction H as [s1 x s2 E|y s c s1 x s2 H IH E]; intros x' s2' c' E'; injection E' as <- <- <-.
  - exists None, s1. split; [left; rewrite E; auto|]. apply preorder_list_top. rewrite E. apply in_app_iff. simpl. auto.
  - destruct (IH _ _ _ eq_refl) as (p & s0 & _ & Hy). exists (Some y), s1. split; [right; apply in_map_iff; exists y; rewrite E; auto|].
    eapply preorder_list_kid; eauto. rewrite E. apply in_app_iff. simpl. auto.
Qed.
Lemma located_in l c : located l c -> forall c1 c2 y s, c = c1 ++ (y, s) :: c2 -> located l ((y, s) :: c2).
Proof.
  induction 1 as [s1 x s2 E|y s c s1 x s2 H IH E]; intros [|v c1] c2 y' s' Ec; simpl in Ec.
  - injection Ec as <- <- <-. econstructor; eauto.
  - injection Ec as _ Ec. destruct c1; discriminate.
  - injection Ec as <- <- <-. econstructor; eauto.
  - injection Ec as _ Ec. eapply IH; eauto.
Qed.

(** What comes after the node of a place, and how much that is. *)
Definition ahead c : list (rose T) := flat_map (fun v => preorder_list (snd v)) c.
Definition room c : nat := length c + length (ahead c).
Lemma room_cons x s c : room ((x, s) :: c) = S (size_l s) + room c.
Proof. unfold room, size_l, ahead. cbn [flat_map length snd]. rewrite app_length. lia. Qed.
Lemma room_in c1 c2 y s : room ((y, s) :: c2) <= room (c1 ++ (y, s) :: c2).
Proof. induction c1 as [|[z r] c1 IH]; simpl app; auto. rewrite (room_cons z r). lia. Qed.
Lemma size_l_app (a b : list (rose T)) : size_l (a ++ b) = size_l a + size_l b.
Proof. unfold size_l, preorder_list. rewrite flat_map_app, app_length. auto. Qed.
Lemma located_room l c : located l c -> forall x s c', c = (x, s) :: c' -> size_l (r_kids x) + room c <= size_l l.
Proof.
  induction 1 as [s1 x s2 E|y s c s1 x s2 H IH E]; intros x' s' c' E'; injection E' as <- <- <-.
  - rewrite E, size_l_app, size_l_cons, size_eq, room_cons. unfold room. simpl. lia.
  - specialize (IH _ _ _ eq_refl). rewrite E, size_l_app, size_l_cons, size_eq in IH. rewrite room_cons. lia.
Qed.
Lemma located_order l c : located l c -> forall x s c', c = (x, s) :: c' -> exists pre, preorder_list l = pre ++ preorder x ++ ahead c.
Proof.
  assert (A : forall a b : list (rose T), preorder_list (a ++ b) = preorder_list a ++ preorder_list b) by (intros; unfold preorder_list; apply flat_map_app).
  assert (C : forall y (b : list (rose T)), preorder_list (y :: b) = preorder y ++ preorder_list b) by (intros; auto).
  induction 1 as [s1 x s2 E|y s c s1 x s2 H IH E]; intros x' s' c' E'; injection E' as <- <- <-.
  - exists (preorder_list s1). rewrite E, A, C. unfold ahead. simpl. rewrite app_nil_r. auto.
  - destruct (IH _ _ _ eq_refl) as (pre & IH'). assert (Ey : preorder y = y :: preorder_list (r_kids y)) by (destruct y; auto).
    exists (pre ++ y :: preorder_list s1). rewrite IH', Ey, E, A, C. unfold ahead. cbn [flat_map snd]. cbn [app]. rewrite <- !app_assoc. cbn [app]. rewrite <- ?app_assoc. auto.
Qed.
End Places.

(** ** Runs *)
Section Runs.
Context {T : Type}.
Variable F : flavor.
Variable ns : list (links T).
Variable l : list (rose T).
Variable o0 : option nat.
Hypothesis S0 : sees (look ns) o0 l.
Hypothesis W0 : within (par ns) [] l.

Lemma sees_suffix s1 : forall o x s2, sees (look ns) o (s1 ++ x :: s2) -> sees (look ns) (Some (r_id x)) (x :: s2).
Proof.
  induction s1 as [|y s1 IH]; intros o x s2 H; simpl in H.
  - destruct x as [i k d sp kids]. inversion H; subst. exact H.
  - inversion H; subst. eapply IH; eauto.
Qed.
Lemma within_suffix s1 : forall A x s2, within (T := T) (par ns) A (s1 ++ x :: s2) -> within (par ns) A (x :: s2).
Proof. induction s1 as [|y s1 IH]; intros A x s2 H; simpl in H; auto. inversion H; subst. eapply IH; eauto. Qed.

Lemma located_facts c : located l c -> forall x s c', c = (x, s) :: c' ->
  sees (look ns) (Some (r_id x)) (x :: s) /\ within (par ns) (map (fun v => r_id (fst v)) c') (x :: s).
Proof.
  induction 1 as [s1 x s2 E|y s c s1 x s2 H IH E]; intros x' s' c' E'; injection E' as <- <- <-.
  - rewrite E in S0, W0. split; [eapply sees_suffix; eauto|eapply within_suffix; eauto].
  - destruct (IH _ _ _ eq_refl) as [A B]. destruct y as [i k d sp kids]. simpl in E. subst kids. inversion A; subst. inversion B; subst. simpl.
    split; [eapply sees_suffix; eauto|eapply within_suffix; eauto].
Qed.

Definition at_place (at_ : option nat) (c : place T) : Prop := at_ = None \/ exists c1 y s c2, at_ = Some (r_id y) /\ c = c1 ++ (y, s) :: c2.
Lemma at_place_ids at_ c : (at_ = None \/ exists q, at_ = Some q /\ In q (map (fun v => r_id (fst v)) c)) -> at_place at_ c.
Proof.
  intros [H|(q & H & Hq)]; [left; auto|]. right. apply in_map_iff in Hq as ([y s] & E & Hy). apply in_split in Hy as (c1 & c2 & ->). exists c1, y, s, c2. simpl in E. subst q. auto.
Qed.

Lemma onward_run n : forall c at_ d, length c <= n -> (c = [] \/ located l c) ->
  (at_ = None \/ exists q, at_ = Some q /\ In q (map (fun v => r_id (fst v)) c)) ->
  (- isize_max F - 1 <= d - Z.of_nat (length c))%Z -> (d + Z.of_nat (room c) <= isize_max F)%Z ->
  exists d', wrun F ns (arrived at_ d) (onward (par ns) at_ d c) (WalkIt None d') /\ ups (onward (par ns) at_ d c) <= room c /\
    subsequence (map snd (filter downwards (onward (par ns) at_ d c))) (ahead c).
Proof.
  induction n as [|n IH]; intros c at_ d Hn Hc Hat Hb1 Hb2.
  - destruct c; [|simpl in Hn; lia]. destruct Hat as [->|(q & _ & [])]. exists d. simpl. split; [constructor|]. split; [auto|constructor].
  - destruct c as [|[y s] c].
    { destruct Hat as [->|(q & _ & [])]. exists d. simpl. split; [constructor|]. split; [auto|constructor]. }
    destruct Hc as [Hc|Hc]; [discriminate|]. rewrite room_cons in Hb2. simpl length in *.
    assert (Hc' : c = [] \/ located l c) by (inversion Hc; subst; auto).
    cbn [onward]. destruct (opt_nat_eqb at_ (Some (r_id y))) eqn:Eat.
    + apply opt_eqb in Eat. subst at_.
      destruct (located_facts _ Hc y s c eq_refl) as [HSy HWy]. destruct y as [i k d0 sp kids]. inversion HSy as [|i' d1 sp1 f nx k' kids' rest E H1 H2]; subst.
      inversion HWy as [|A i' k' d1 sp1 kids' rest Hp _ Hw2]; subst.
      destruct (sees_shows ns _ _ _ _ _ k _ E H1) as (lk & El & Ef & En & Hsh). cbn [r_id].
      assert (St : walk_events_next F ns (arrived (Some i) d) = (after (l_parent lk) (l_next lk) d, Some (Up, (i, lk)))) by (apply step_up; auto; lia).
      assert (Pi : par ns i = l_parent lk) by (unfold par; rewrite El; auto).
      assert (Us : forall tr, ups ((d, Up, Nd i k d0 sp kids) :: tr) = S (ups tr)) by (intros; unfold ups; simpl; auto).
      assert (Ds : forall tr, filter downwards ((d, Up, Nd i k d0 sp kids) :: tr) = filter downwards tr) by auto.
      destruct s as [|z s].
      * assert (nx = None) by (inversion H2; auto). rewrite En, H in St. rewrite Pi in *.
        destruct (IH c (l_parent lk) (d - 1)%Z ltac:(lia) Hc' Hp ltac:(lia) ltac:(unfold size_l in *; simpl in *; lia)) as (d' & R & U & O).
        exists d'. split; [|split].
        -- change d with (wk_depth (arrived (Some i) d)) at 2. econstructor; [exact St|exact Hsh|]. exact R.
        -- rewrite Us, room_cons. lia.
        -- rewrite Ds. exact O.
      * assert (exists q, nx = Some q) as (q & Hq) by (inversion H2; eauto). rewrite En, Hq in St.
        assert (Hb3 : (d + Z.of_nat (size_l (z :: s)) <= isize_max F)%Z) by lia.
        pose proof (wrun_row F ns _ _ H2 q Next d Hq ltac:(discriminate) ltac:(lia) Hb3) as R1.
        pose proof (tour_ends ns _ _ Hw2 Next d) as E1.
        pose proof (row_ups T (par ns) _ (z :: s) Next d (le_n _) ltac:(discriminate)) as U1.
        pose proof (tour_order (par ns) (z :: s) Next d ltac:(discriminate)) as O1.
        destruct (tour_row (par ns) Next d (z :: s)) as [tr [at' d']]. cbn [fst] in U1, O1. destruct R1 as [R1 B1].
        destruct (IH c at' d' ltac:(lia) Hc' E1 ltac:(lia) ltac:(lia)) as (d'' & R & U & O).
        exists d''. split; [|split].
        -- change d with (wk_depth (arrived (Some i) d)) at 2. econstructor; [exact St|exact Hsh|]. eapply wrun_app; eauto.
        -- rewrite Us, ups_app, room_cons. lia.
        -- rewrite Ds, downs_app. unfold ahead. cbn [flat_map snd]. apply subsequence_app; auto.
    + destruct (IH c at_ d ltac:(lia) Hc') as (d' & R & U & O).
      * destruct Hat as [Hat|(q & -> & Hq)]; auto. simpl in Hq. destruct Hq as [<-|Hq]; eauto. rewrite opt_eqb_refl in Eat. discriminate.
      * lia.
      * lia.
      * exists d'. split; auto. rewrite room_cons. split; [lia|]. unfold ahead. cbn [flat_map snd]. apply (subsequence_app [] _ (map snd (filter downwards (onward (par ns) at_ d c)))); auto. apply subsequence_none.
Qed.

(** *** inside *)
Lemma inside_stuck f w : wk_node w = None -> inside_loop (S f) F ns w = Ok (w, None).
Proof. intros E. destruct w as [p d]. simpl in E. subst. reflexivity. Qed.
Lemma deeper_cons d e x (tr : visits (T := T)) : deeper_visits ((d, e, x) :: tr) = if (0 <? d)%Z then confined ((d, e, x) :: tr) else [].
Proof. auto. Qed.
Lemma inside_go tr : forall w d f, wrun F ns w tr (WalkIt None d) -> ups tr < f ->
  match filter entering (confined tr) with
  | [] => exists w', inside_loop f F ns w = Ok (w', None) /\ wk_node w' = None
  | (_, _, x) :: r => exists w1 n tr1 d1, inside_loop f F ns w = Ok (w1, Some n) /\ shows ns n x /\ wrun F ns w1 tr1 (WalkIt None d1) /\
      filter entering (confined tr1) = r /\ length tr1 < length tr /\ ups tr1 <= ups tr
  end.
Proof.
  induction tr as [|[[d0 e0] x0] tr IH]; intros w d f H Hf.
  - inversion H; subst. simpl. exists (WalkIt None d). destruct f; [lia|]. auto.
  - inversion H as [|? w1 ? e n x ? E Hs Hr]; subst. cbn [confined]. destruct f as [|f]; [lia|]. cbn [inside_loop]. rewrite E.
    set (w' := if (wk_depth w1 <=? 0)%Z then walk_default else w1).
    assert (X : exists tr1 d1, wrun F ns w' tr1 (WalkIt None d1) /\ confined tr1 = deeper_visits tr /\ length tr1 <= length tr /\ ups tr1 <= ups tr /\ (tr1 = [] \/ (tr1 = tr /\ w' = w1))).
    { destruct tr as [|[[d2 e2] x2] tr].
      - inversion Hr; subst. unfold w'. cbn [wk_depth]. destruct (Z.leb_spec d 0); [exists [], 0%Z|exists [], d]; simpl; repeat split; auto; constructor.
      - pose proof (wrun_cons_state _ _ _ _ _ _ _ _ Hr) as Ew. unfold w'. rewrite deeper_cons. rewrite Ew. cbn [wk_depth].
        destruct (Z.leb_spec d2 0), (Z.ltb_spec 0 d2); try lia.
        + exists [], 0%Z. split; [constructor|]. split; [reflexivity|]. split; [simpl; lia|]. split; [unfold ups at 1; simpl; lia|auto].
        + exists ((d2, e2, x2) :: tr), d. rewrite <- Ew. repeat split; auto. }
    destruct X as (tr1 & d1 & X1 & X2 & X3 & X4 & X5). clearbody w'.
    destruct e0.
    + cbn [filter]. change (entering (wk_depth w, Next, x0)) with true. cbn iota. exists w', n, tr1, d1. rewrite X2. split; [reflexivity|]. split; [exact Hs|]. split; [exact X1|]. split; [reflexivity|]. split; [simpl; lia|].
      unfold ups at 2. cbn [filter]. change (negb (entering (wk_depth w, Next, x0))) with false. cbn iota. exact X4.
    + cbn [filter]. change (entering (wk_depth w, Down, x0)) with true. cbn iota. exists w', n, tr1, d1. rewrite X2. split; [reflexivity|]. split; [exact Hs|]. split; [exact X1|]. split; [reflexivity|]. split; [simpl; lia|].
      unfold ups at 2. cbn [filter]. change (negb (entering (wk_depth w, Down, x0))) with false. cbn iota. exact X4.
    + cbn [filter]. change (entering (wk_depth w, Up, x0)) with false. cbn iota. rewrite <- X2.
      assert (Hu : ups ((wk_depth w, Up, x0) :: tr) = S (ups tr)) by reflexivity. rewrite Hu in Hf.
      destruct X5 as [->|[-> Ew]].
      * simpl. exists w'. destruct f; [exfalso; exact (Nat.nlt_0_r _ (proj2 (Nat.succ_lt_mono _ _) Hf))|]. assert (Hw' : wk_node w' = None) by (clear -X1; inversion X1; auto). split; [apply inside_stuck; auto|auto].
      * specialize (IH w' d1 f X1 ltac:(clear -Hf; lia)). destruct (filter entering (confined tr)) as [|[[d3 e3] x3] r]; auto.
        destruct IH as (w2 & n2 & tr2 & d2 & I1 & I2 & I3 & I4 & I5 & I6). exists w2, n2, tr2, d2. split; [exact I1|]. split; [exact I2|]. split; [exact I3|]. split; [exact I4|]. split; [simpl; lia|rewrite Hu; lia].
Qed.
Lemma inside_run_all k : forall tr w d, length tr <= k -> wrun F ns w tr (WalkIt None d) -> ups tr < loop_fuel ns ->
  enum_rel (inside_next F ns) (shows ns) w (map snd (filter entering (confined tr))).
Proof.
  assert (Z0 : forall w, wk_node w = None -> enum_rel (inside_next F ns) (shows ns) w []).
  { intros w Hw. apply enum_rel_nil. apply (enumerates_stuck _ (fun w => wk_node w = None)); auto. intros s Hs. exists s. split; auto. unfold inside_next, loop_fuel. apply inside_stuck; auto. }
  induction k as [|k IH]; intros tr w d Hk H Hu; pose proof (inside_go tr w d _ H Hu) as G.
  - destruct tr; [|simpl in Hk; lia]. simpl in *. inversion H. apply Z0. auto.
  - destruct (filter entering (confined tr)) as [|[[d0 e0] x] r].
    + destruct G as (w' & G1 & G2). simpl. apply enum_rel_nil. apply enumerates_nil. exists w'. split; auto. destruct (Z0 w' G2) as (items & A & B). inversion B; subst; auto.
    + destruct G as (w1 & n & tr1 & d1 & G1 & G2 & G3 & G4 & G5 & G6). cbn [map snd]. eapply enum_rel_cons; [exact G1|exact G2|]. rewrite <- G4. eapply IH; eauto; lia.
Qed.

(** *** All forms of a walk *)
Lemma run_makes (t : tree T) w tr d : t_nodes t = ns -> wrun F ns w tr (WalkIt None d) -> ups tr < loop_fuel ns -> makes F t w tr.
Proof.
  intros Et H Hu. unfold makes. rewrite Et. rewrite !downwards_entering. split; [|split; [|split]].
  - destruct (wrun_events _ _ _ _ _ H) as (items & A & B). exists items. split; auto.
    clear -B. induction B as [|a b c e [E [_ V]] _ IH]; simpl; auto. rewrite IH, E, V. auto.
  - destruct (wrun_depths _ _ _ _ _ _ H Hu) as (items & A & B). exists items. split; auto.
    clear -B. induction B as [|a b c e [E [_ V]] _ IH]; simpl; auto. rewrite IH, E, V. auto.
  - destruct (wrun_walk _ _ _ _ _ _ H Hu) as (items & A & B). exists items. split; auto. apply (shows_view _ _ _ _ B).
  - destruct (inside_run_all (length tr) tr w d (le_n _) H Hu) as (items & A & B). exists items. split; auto. apply (shows_view _ _ _ _ B).
Qed.
End Runs.
