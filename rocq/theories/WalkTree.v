(** The walk iterators started on a finished tree or on one of its nodes. *)
From Coq Require Import Lia Permutation.
From Verif Require Import Base Pointer Index Tree Builder Hist Node Iter Spec Rep Marks Refine
  TreeRep Enum Walk.

(** ** Lists *)
Lemma map_filter_split {A B} (f : A -> B) (p : A -> bool) l pre x post :
  map f (filter p l) = pre ++ x :: post ->
  exists l1 a l2, l = l1 ++ a :: l2 /\ p a = true /\ f a = x /\
    map f (filter p l1) = pre /\ map f (filter p l2) = post.
Proof.
  revert pre; induction l as [|a l IH]; simpl; intros pre H.
  - destruct pre; discriminate.
  - destruct (p a) eqn:E.
    + simpl in H. destruct pre as [|b pre]; simpl in H.
      * injection H as <- <-. exists [], a, l. auto.
      * injection H as <- H. destruct (IH _ H) as (l1 & a' & l2 & -> & H1 & H2 & H3 & H4).
        exists (a :: l1), a', l2. simpl. rewrite E. simpl. repeat split; auto. congruence.
    + destruct (IH _ H) as (l1 & a' & l2 & -> & H1 & H2 & H3 & H4).
      exists (a :: l1), a', l2. simpl. rewrite E. repeat split; auto.
Qed.

Lemma split_unique {A} (l1 l2 m1 m2 : list A) x :
  l1 ++ x :: l2 = m1 ++ x :: m2 -> NoDup (l1 ++ x :: l2) -> l1 = m1 /\ l2 = m2.
Proof.
  revert m1; induction l1 as [|a l1 IH]; intros [|b m1] H Hd; simpl in *.
  - injection H as ->. auto.
  - injection H as -> ->. inversion Hd; subst. exfalso. apply H1. apply in_app_iff. simpl; auto.
  - injection H as -> <-. inversion Hd; subst. exfalso. apply H1. apply in_app_iff. simpl; auto.
  - injection H as -> H. inversion Hd; subst. destruct (IH _ H); auto. split; congruence.
Qed.

Section WalkTree.
Context {T : Type}.
Variable F : flavor.
Variable t : tree T.
Variable l : list (rose T).
Hypothesis Hrep : tree_rep t l.
Hypothesis Hfits : fits F t.
Notation nodes := (t_nodes t).
Implicit Types x y z : rose T.
Implicit Types s ks : list (rose T).
Implicit Types tr : list (Z * event * rose T).

Lemma fits_size : (Z.of_nat (size_l l) < isize_max F)%Z.
Proof. unfold fits in Hfits. rewrite (tr_length _ _ Hrep) in Hfits. auto. Qed.

Lemma size_l_le_fuel : size_l l < loop_fuel nodes.
Proof. unfold loop_fuel. rewrite (tr_length _ _ Hrep). unfold size_l. lia. Qed.

(** ** Shifting depths *)
Definition shift (c : Z) (i : Z * event * rose T) : Z * event * rose T :=
  (fst (fst i) + c, snd (fst i), snd i)%Z.

Lemma trace_shift x : forall c dp e, map (shift c) (trace dp e x) = trace (dp + c) e x.
Proof.
  induction x as [id k d sp kids IH] using rose_ind'. intros c dp e.
  rewrite !trace_eq. cbn [r_kids map]. f_equal.
  destruct kids as [|a ks]; auto. rewrite map_app. cbn [map shift fst snd]. f_equal.
  inversion IH as [|? ? Ha Hks]; subst. cbn [trace_kids]. rewrite map_app, Ha.
  replace (dp + 1 + c)%Z with (dp + c + 1)%Z by lia. f_equal.
  clear - Hks. unfold trace_list. induction Hks as [|y s Hy _ IHs]; simpl; auto.
  rewrite map_app, Hy, IHs. replace (dp + 1 + c)%Z with (dp + c + 1)%Z by lia. auto.
Qed.
Lemma trace_list_shift s c dp : map (shift c) (trace_list dp s) = trace_list (dp + c) s.
Proof.
  unfold trace_list. induction s; simpl; auto. rewrite map_app, trace_shift. congruence.
Qed.

Lemma full_run c : (- Z.of_nat (size_l l) <= c <= 0)%Z ->
  match l with
  | [] => True
  | x :: _ => wrun F nodes (WalkIt (Some (r_id x, Next)) c) (trace_list c l) (WalkIt None (c - 1))
  end.
Proof.
  intros Hc. pose proof fits_size as Hs.
  pose proof (wrun_forest F nodes l None None c (tr_rep _ _ Hrep)) as H.
  assert (G : in_range F (c - 1) (c + Z.of_nat (size_l l))) by (unfold in_range; lia).
  specialize (H G). destruct l; auto.
Qed.

(** ** Starting at the root *)
Lemma tree_run : exists d, wrun F nodes (tree_walk t) (trace_list 0 l) (WalkIt None d).
Proof.
  unfold tree_walk. rewrite (tr_first _ _ Hrep). pose proof (full_run 0 ltac:(lia)) as H.
  destruct l as [|x s].
  - exists 0%Z. constructor.
  - exists (0 - 1)%Z. apply H.
Qed.

(** ** Depths of positions *)
Lemma trace_range x : forall dp e i, In i (trace dp e x) ->
  (dp <= fst (fst i) < dp + Z.of_nat (size x))%Z.
Proof.
  induction x as [id k d sp kids IH] using rose_ind'. intros dp e i Hi.
  rewrite trace_eq, size_eq in *. cbn [r_kids] in *. destruct Hi as [<-|Hi]; [simpl; lia|].
  destruct kids as [|a ks]; [destruct Hi|].
  apply in_app_iff in Hi as [Hi|[<-|[]]]; [|simpl; lia].
  cbn [trace_kids] in Hi. rewrite size_l_cons. inversion IH as [|? ? Ha Hks]; subst.
  apply in_app_iff in Hi as [Hi|Hi]; [apply Ha in Hi; lia|].
  enough (dp + 1 <= fst (fst i) < dp + 1 + Z.of_nat (size_l ks))%Z by lia.
  clear - Hks Hi. unfold trace_list in Hi. induction Hks as [|y s Hy _ IHs]; simpl in Hi; [tauto|].
  rewrite size_l_cons. apply in_app_iff in Hi as [Hi|Hi]; [apply Hy in Hi|apply IHs in Hi]; lia.
Qed.
Lemma trace_list_range s : forall dp i, In i (trace_list dp s) ->
  (dp <= fst (fst i) < dp + Z.of_nat (size_l s))%Z.
Proof.
  unfold trace_list. induction s as [|y s IHs]; simpl; intros dp i Hi; [tauto|].
  rewrite size_l_cons. apply in_app_iff in Hi as [Hi|Hi]; [apply trace_range in Hi|apply IHs in Hi]; lia.
Qed.

(** ** Starting in the middle *)
Lemma mid_run tr1 k e x tr2 :
  trace_list 0 l = tr1 ++ (k, e, x) :: tr2 ->
  wrun F nodes (WalkIt (Some (r_id x, e)) 0) ((0%Z, e, x) :: map (shift (- k)) tr2)
       (WalkIt None (- k - 1)).
Proof.
  intros E. assert (Hk : (0 <= k < Z.of_nat (size_l l))%Z).
  { assert (Hi : In (k, e, x) (trace_list 0 l)) by (rewrite E; apply in_app_iff; simpl; auto).
    apply trace_list_range in Hi. simpl in Hi. lia. }
  pose proof (full_run (- k) ltac:(lia)) as H.
  assert (E2 : trace_list (- k) l = map (shift (- k)) (trace_list 0 l)).
  { rewrite trace_list_shift. f_equal. }
  rewrite E2, E, map_app in H. cbn [map] in H.
  assert (E3 : shift (- k) (k, e, x) = (0%Z, e, x)).
  { unfold shift; simpl. f_equal. f_equal. lia. }
  rewrite E3 in H. clear E3.
  destruct l as [|y s]; [destruct tr1; discriminate|].
  apply wrun_app_inv in H as (w & H1 & H2).
  pose proof (wrun_cons_state _ _ _ _ _ _ _ _ H2). subst w. auto.
Qed.

Lemma entering_next w_d x e : e <> Up ->
  walk_events_next F nodes (WalkIt (Some (r_id x, Next)) w_d) =
  match walk_events_next F nodes (WalkIt (Some (r_id x, e)) w_d) with
  | (w, Some (_, n)) => (w, Some (Next, n))
  | r => r
  end.
Proof.
  intros He. unfold walk_events_next. cbn [wk_node wk_depth].
  destruct (nth_error nodes (r_id x)) as [lk|]; auto.
  destruct e; [| |congruence]; simpl; destruct (l_first lk); simpl;
    destruct (isize_inc F w_d), (isize_dec F w_d), (l_next lk), (l_parent lk); auto.
Qed.

Lemma mid_run_next tr1 k e x tr2 : e <> Up ->
  trace_list 0 l = tr1 ++ (k, e, x) :: tr2 ->
  wrun F nodes (WalkIt (Some (r_id x, Next)) 0) ((0%Z, Next, x) :: map (shift (- k)) tr2)
       (WalkIt None (- k - 1)).
Proof.
  intros He E. apply mid_run in E. inversion E as [|? w1 ? e0 n ? ? H1 H2 H3]; subst.
  change 0%Z with (wk_depth (WalkIt (Some (r_id x, Next)) 0)) at 2.
  econstructor; [|apply H2|apply H3].
  rewrite (entering_next 0 x e He), H1. auto.
Qed.

(** ** Subtrees inside the trace *)
Lemma trace_sub x : forall y dp e, e <> Up -> In x (preorder y) ->
  exists tr1 k e' tr2, trace dp e y = tr1 ++ trace k e' x ++ tr2 /\ e' <> Up.
Proof.
  induction y as [id k d sp kids IH] using rose_ind'. intros dp e He Hx.
  simpl in Hx. destruct Hx as [<-|Hx].
  { exists [], dp, e, []. rewrite app_nil_r. auto. }
  rewrite trace_eq. cbn [r_kids].
  destruct kids as [|a ks]; [destruct Hx|]. cbn [trace_kids].
  inversion IH as [|? ? Ha Hks]; subst. cbn [flat_map] in Hx.
  apply in_app_iff in Hx as [Hx|Hx].
  - destruct (Ha (dp + 1)%Z Down ltac:(congruence) Hx) as (tr1 & k' & e' & tr2 & E & He').
    rewrite E. exists ((dp, e, Nd id k d sp (a :: ks)) :: tr1), k', e'.
    eexists. split; auto. cbn [app]. f_equal. rewrite <- !app_assoc. reflexivity.
  - assert (G : exists tr1 k e' tr2, trace_list (dp + 1) ks = tr1 ++ trace k e' x ++ tr2 /\ e' <> Up).
    { clear - Hks Hx. unfold trace_list. induction Hks as [|y s Hy _ IHs]; simpl in *; [tauto|].
      apply in_app_iff in Hx as [Hx|Hx].
      - destruct (Hy (dp + 1)%Z Next ltac:(congruence) Hx) as (tr1 & k' & e' & tr2 & -> & He').
        exists tr1, k', e'. eexists. split; auto. rewrite <- !app_assoc. reflexivity.
      - destruct (IHs Hx) as (tr1 & k' & e' & tr2 & -> & He').
        exists (trace (dp + 1) Next y ++ tr1), k', e', tr2. split; auto. rewrite <- !app_assoc. auto. }
    destruct G as (tr1 & k' & e' & tr2 & -> & He').
    exists ((dp, e, Nd id k d sp (a :: ks)) :: trace (dp + 1) Down a ++ tr1), k', e'.
    eexists. split; auto. cbn [app]. f_equal. rewrite <- !app_assoc. reflexivity.
Qed.

Lemma trace_list_sub x : forall s dp, In x (preorder_list s) ->
  exists tr1 k e' tr2, trace_list dp s = tr1 ++ trace k e' x ++ tr2 /\ e' <> Up.
Proof.
  unfold trace_list. induction s as [|y s IHs]; simpl; intros dp Hx; [tauto|].
  apply in_app_iff in Hx as [Hx|Hx].
  - destruct (trace_sub x y dp Next ltac:(congruence) Hx) as (tr1 & k' & e' & tr2 & -> & He').
    exists tr1, k', e'. eexists. split; auto. rewrite <- !app_assoc. reflexivity.
  - destruct (IHs dp Hx) as (tr1 & k' & e' & tr2 & -> & He').
    exists (trace dp Next y ++ tr1), k', e', tr2. split; auto. rewrite <- !app_assoc. auto.
Qed.

Lemma ups_shift c tr : ups (map (shift c) tr) = ups tr.
Proof.
  unfold ups. induction tr as [|[[a e] x] tr IH]; simpl; auto. unfold entering; simpl.
  destruct e; simpl; auto.
Qed.
Lemma filter_shift c tr : filter entering (map (shift c) tr) = map (shift c) (filter entering tr).
Proof.
  induction tr as [|[[a e] x] tr IH]; simpl; auto. unfold entering in *; simpl in *.
  destruct e; simpl; congruence.
Qed.
Lemma snd_shift c tr : map snd (map (shift c) tr) = map snd tr.
Proof. rewrite map_map. auto. Qed.

Lemma nodup_preorder : NoDup (preorder_list l).
Proof. eapply NoDup_map_inv. rewrite <- ids_l_preorder. eapply tr_nodup; eauto. Qed.

(** The position of a node, and leaving it. *)
Lemma leave_run_at tr1 k e x tr2 : e <> Up -> In x (preorder_list l) ->
  trace_list 0 l = tr1 ++ trace k e x ++ tr2 ->
  wrun F nodes (WalkIt (Some (r_id x, Up)) 0) ((0%Z, Up, x) :: map (shift (- k)) tr2) (WalkIt None (- k - 1)).
Proof.
  intros He Hx Et.
  (* the run *)
  rewrite trace_eq in Et. cbn [app] in Et.
  pose proof (mid_run _ _ _ _ _ Et) as Hr.
  set (rest := match r_kids x with [] => [] | _ => _ end) in *.
  rewrite map_app in Hr.
  (* after the subtree *)
  destruct (in_sibling_lists _ _ Hx) as (p & s1 & s2 & Hsl).
  pose proof (node_links _ _ _ _ _ _ Hrep Hsl) as Hl.
  pose proof fits_size as Hs.
  assert (Hrx : exists pr, rep nodes (flat (pid p) pr (hd_id s2 None) x)).
  { pose proof (rep_siblings _ _ _ _ Hrep Hsl) as G. rewrite flat_list_app in G.
    apply rep_app in G as [_ G]. cbn [flat_list] in G. apply rep_app in G as [G _]. eauto. }
  destruct Hrx as [pr Hrx].
  assert (Hsx : size x <= size_l l).
  { pose proof (f_equal (map snd) (f_equal (filter entering) Et)) as G.
    rewrite trace_list_nodes, filter_app, map_app in G. apply (f_equal (@length _)) in G.
    change ((k, e, x) :: rest ++ tr2) with (((k, e, x) :: rest) ++ tr2) in G. unfold rest in G.
    rewrite <- trace_eq, filter_app, !app_length, map_app, app_length in G.
    assert (Hsx : map snd (filter entering (trace k e x)) = preorder x).
    { rewrite <- (preorder_depth_snd k x), <- (trace_preorder k e x He), map_map. auto. }
    rewrite Hsx in G. unfold size, size_l. lia. }
  pose proof (wrun_tree F nodes x (pid p) pr (hd_id s2 None) 0%Z e He Hrx
    ltac:(unfold in_range; lia)) as Hw.
  assert (Etr : trace 0 e x = (0%Z, e, x) :: map (shift (- k)) rest).
  { replace 0%Z with (k + - k)%Z at 1 by lia. rewrite <- trace_shift, trace_eq.
    cbn [map]. f_equal. unfold shift; simpl. f_equal. f_equal. lia. }
  rewrite Etr in Hw.
  assert (Hr' : wrun F nodes (WalkIt (Some (r_id x, e)) 0)
     (((0%Z, e, x) :: map (shift (- k)) rest) ++ map (shift (- k)) tr2) (WalkIt None (- k - 1)))
    by auto.
  apply wrun_app_inv in Hr' as (w2 & Ha & Hb).
  assert (Hdet : w2 = after (pid p) (hd_id s2 None) 0).
  { clear - Ha Hw. revert Ha Hw. generalize (after (pid p) (hd_id s2 None) 0).
    generalize ((0%Z, e, x) :: map (shift (- k)) rest). intros tr w Ha. revert w.
    induction Ha as [|w w1 w2 e0 n y tr H1 H2 H3 IH]; intros w' H; inversion H; subst; auto.
    apply IH. congruence. }
  subst w2.
  change 0%Z with (wk_depth (WalkIt (Some (r_id x, Up)) 0)) at 2.
  econstructor; [|apply shows_links; apply Hl|apply Hb].
  apply step_leave; auto. lia.
Qed.

Lemma leave_run pre x post :
  preorder_list l = pre ++ preorder x ++ post ->
  exists k tr2, wrun F nodes (WalkIt (Some (r_id x, Up)) 0) ((0%Z, Up, x) :: tr2) (WalkIt None k) /\
    map snd (filter entering tr2) = post /\ S (ups tr2) < loop_fuel nodes.
Proof.
  intros E. assert (Hx : In x (preorder_list l)).
  { rewrite E. apply in_app_iff. right. apply in_app_iff. left. apply preorder_self. }
  destruct (trace_list_sub x l 0 Hx) as (tr1 & k & e & tr2 & Et & He).
  assert (Hp : map snd (filter entering tr2) = post).
  { pose proof (trace_list_nodes 0 l) as Hn. rewrite Et, !filter_app, !map_app, E in Hn.
    assert (Hs : map snd (filter entering (trace k e x)) = preorder x).
    { rewrite <- (preorder_depth_snd k x), <- (trace_preorder k e x He), map_map. auto. }
    rewrite Hs in Hn. pose proof nodup_preorder as Hd. rewrite E in Hd.
    destruct x as [i kk d sp kids]. simpl in Hn, Hd.
    destruct (split_unique _ _ _ _ _ (eq_sym Hn) Hd) as [_ Hq].
    apply app_inv_head in Hq. auto. }
  assert (Hu : ups tr2 <= size_l l).
  { pose proof (ups_trace_list 0 l) as G. rewrite Et, !ups_app in G. lia. }
  exists (- k - 1)%Z, (map (shift (- k)) tr2).
  rewrite filter_shift, snd_shift, ups_shift.
  assert (Hf : loop_fuel nodes = S (S (size_l l))).
  { unfold loop_fuel. rewrite (tr_length _ _ Hrep). auto. }
  repeat split; auto; [|lia].
  exact (leave_run_at _ _ _ _ _ He Hx Et).
Qed.

(** ** Inside *)
Lemma inside_default fuel : 0 < fuel -> enumerates (inside_loop fuel F nodes) walk_default [].
Proof.
  intros Hf. apply enumerates_stuck with (P := fun w => w = walk_default); auto.
  intros w ->. exists walk_default. destruct fuel; [lia|]. auto.
Qed.

Lemma inside_run w tr w2 fuel :
  wrun F nodes w tr w2 -> tr <> [] -> ups tr < fuel -> (wk_depth w2 <= 0)%Z ->
  Forall (fun i => 0 < fst (fst i))%Z (tl tr) ->
  enum_rel (inside_loop fuel F nodes) (shows nodes) w (map snd (filter entering tr)).
Proof.
  intros H. induction H as [|w w1 w2 e n x tr E Hs H IH]; intros Hne Hf Hd Hall; [congruence|].
  destruct fuel as [|fuel]; [lia|].
  assert (Hup : ups tr < S fuel) by (unfold ups in *; cbn [filter] in Hf; destruct (negb _); simpl in Hf; lia).
  cbn [tl] in Hall.
  assert (Hin : inside_loop (S fuel) F nodes w =
     let w' := if (wk_depth w1 <=? 0)%Z then walk_default else w1 in
     match e with Up => inside_loop fuel F nodes w' | _ => Ok (w', Some n) end).
  { cbn [inside_loop]. rewrite E. auto. }
  destruct tr as [|[[d' e'] x'] tr].
  - inversion H; subst. cbv zeta in Hin. destruct (Z.leb_spec (wk_depth w2) 0); [|lia].
    cbn [filter]. destruct e; cbn [entering fst snd map].
    + eapply enum_rel_cons; [apply Hin|auto|]. apply enum_rel_nil, inside_default. lia.
    + eapply enum_rel_cons; [apply Hin|auto|]. apply enum_rel_nil, inside_default. lia.
    + eapply enum_rel_ext; [|apply enum_rel_nil, inside_default; lia].
      rewrite Hin. destruct fuel; [unfold ups in Hf; simpl in Hf; lia|]. auto.
  - pose proof (wrun_cons_state _ _ _ _ _ _ _ _ H) as Hw1.
    inversion Hall as [|? ? Hd' Hall']; subst w1. cbn [fst] in Hd'.
    cbn [wk_depth] in Hin. cbv zeta in Hin. destruct (Z.leb_spec d' 0); [lia|].
    specialize (IH ltac:(congruence) Hup Hd Hall').
    destruct e.
    + cbn [filter entering fst snd map] in *. eapply enum_rel_cons; [apply Hin|auto|apply IH].
    + cbn [filter entering fst snd map] in *. eapply enum_rel_cons; [apply Hin|auto|apply IH].
    + change (filter entering ((wk_depth w, Up, x) :: (d', e', x') :: tr))
        with (filter entering ((d', e', x') :: tr)).
      eapply enum_rel_ext; [|apply IH]. rewrite Hin.
      assert (Hf2 : ups ((d', e', x') :: tr) < fuel).
      { unfold ups in *. simpl in Hf. simpl. lia. }
      revert H Hf2 Hd Hall'. clear. intros H Hf2 Hd Hall'.
      (* fuel independence *)
      assert (G : forall w tr, wrun F nodes w tr w2 -> tr <> [] ->
         Forall (fun i => 0 < fst (fst i))%Z (tl tr) ->
         forall f1 f2, ups tr < f1 -> ups tr < f2 -> inside_loop f1 F nodes w = inside_loop f2 F nodes w).
      { clear - Hd. intros w tr H. induction H as [|w w1 w2 e n x tr E Hs H IH]; intros Hne Hall f1 f2 H1 H2; [congruence|].
        destruct f1 as [|f1], f2 as [|f2]; try lia. cbn [inside_loop]. rewrite E.
        destruct e; auto.
        destruct tr as [|[[d' e'] x'] tr].
        - inversion H; subst. destruct (Z.leb_spec (wk_depth w2) 0); [|lia].
          unfold ups in H1, H2; simpl in H1, H2. destruct f1, f2; try lia. auto.
        - pose proof (wrun_cons_state _ _ _ _ _ _ _ _ H) as Hw1. subst w1. cbn [wk_depth].
          cbn [tl] in Hall. inversion Hall as [|? ? Hd' Hall']; subst. cbn [fst] in Hd'.
          destruct (Z.leb_spec d' 0); [lia|]. apply IH; auto; try congruence.
          + unfold ups in *. simpl in H1. simpl. lia.
          + unfold ups in *. simpl in H2. simpl. lia. }
      eapply G; eauto; congruence || lia.
Qed.

End WalkTree.
