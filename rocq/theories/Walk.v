(** The walk iterators on a finished tree. *)
From Coq Require Import Lia Permutation.
From Verif Require Import Base Pointer Index Tree Builder Hist Node Iter Spec Rep Marks Refine
  TreeRep Enum.

Section Walk.
Context {T : Type}.
Variable F : flavor.
Variable nodes : list (links T).
Implicit Types x y z : rose T.
Implicit Types l s ks : list (rose T).

(** A node of the code showing a node of the document. *)
Definition shows (n : node T) x : Prop :=
  node_at nodes (r_id x) = Some n /\ view n = rview x.

Lemma shows_links par prev nxt x :
  nth_error nodes (r_id x) = Some (links_of par prev nxt x) ->
  shows (r_id x, links_of par prev nxt x) x.
Proof.
  intros H. split; [|apply view_links; auto]. unfold node_at. rewrite H. auto.
Qed.

(** The trace with the depth before each event. *)
Fixpoint trace (dp : Z) (e : event) x : list (Z * event * rose T) :=
  match x with
  | Nd _ _ _ _ [] => [(dp, e, x)]
  | Nd _ _ _ _ (k :: ks) =>
      (dp, e, x) :: trace (dp + 1) Down k ++ flat_map (trace (dp + 1) Next) ks ++ [(dp, Up, x)]
  end.
Definition trace_list dp l := flat_map (trace dp Next) l.
Definition trace_kids dp ks :=
  match ks with [] => [] | k :: ks => trace dp Down k ++ trace_list dp ks end.

Lemma trace_eq dp e x : trace dp e x =
  (dp, e, x) :: match r_kids x with [] => [] | ks => trace_kids (dp + 1) ks ++ [(dp, Up, x)] end.
Proof. destruct x as [? ? ? ? [|k ks]]; simpl; auto. rewrite app_assoc. auto. Qed.

Lemma trace_events dp e x : map (fun i => (snd (fst i), snd i)) (trace dp e x) = events e x.
Proof.
  revert dp e. induction x as [id k d sp kids IH] using rose_ind'. intros dp e.
  destruct kids as [|c ks]; simpl; auto. inversion IH as [|? ? Hc Hks]; subst.
  f_equal. rewrite !map_app, Hc. f_equal. f_equal.
  clear - Hks. induction Hks; simpl; auto. rewrite map_app. congruence.
Qed.
Lemma trace_list_events dp l :
  map (fun i => (snd (fst i), snd i)) (trace_list dp l) = events_list l.
Proof.
  unfold trace_list, events_list. induction l; simpl; auto.
  rewrite map_app, trace_events. congruence.
Qed.

Definition entering (i : Z * event * rose T) : bool :=
  match snd (fst i) with Up => false | _ => true end.

Lemma trace_preorder dp e x : e <> Up ->
  map (fun i => (fst (fst i), snd i)) (filter entering (trace dp e x)) = preorder_depth dp x.
Proof.
  revert dp e. induction x as [id k d sp kids IH] using rose_ind'. intros dp e He.
  rewrite trace_eq. cbn [r_kids].
  assert (E : entering (dp, e, Nd id k d sp kids) = true) by (destruct e; auto; congruence).
  cbn [filter]. rewrite E. cbn [map fst snd preorder_depth]. f_equal.
  destruct kids as [|c ks]; auto. cbn [trace_kids flat_map].
  rewrite filter_app. cbn [filter entering fst snd]. rewrite app_nil_r.
  rewrite filter_app, map_app. inversion IH as [|? ? Hc Hks]; subst.
  rewrite Hc by congruence. f_equal.
  clear - Hks. unfold trace_list. induction Hks as [|y l Hy _ IHl]; simpl; auto.
  rewrite filter_app, map_app, Hy by congruence. congruence.
Qed.

Lemma preorder_depth_snd dp x : map snd (preorder_depth dp x) = preorder x.
Proof.
  revert dp. induction x as [id k d sp kids IH] using rose_ind'. intros dp. simpl. f_equal.
  induction IH as [|y l Hy _ IHl]; simpl; auto. rewrite map_app, Hy. congruence.
Qed.

Definition preorder_depth_list dp l := flat_map (@preorder_depth T dp) l.

Lemma trace_list_preorder dp l :
  map (fun i => (fst (fst i), snd i)) (filter entering (trace_list dp l)) = preorder_depth_list dp l.
Proof.
  unfold trace_list, preorder_depth_list. induction l; simpl; auto.
  rewrite filter_app, map_app, trace_preorder by congruence. congruence.
Qed.
Lemma preorder_depth_list_snd dp l : map snd (preorder_depth_list dp l) = preorder_list l.
Proof.
  unfold preorder_depth_list, preorder_list. induction l; simpl; auto.
  rewrite map_app, preorder_depth_snd. congruence.
Qed.
Lemma trace_list_nodes dp l : map snd (filter entering (trace_list dp l)) = preorder_list l.
Proof.
  rewrite <- (preorder_depth_list_snd dp), <- trace_list_preorder, map_map. auto.
Qed.

(** ** Running the event iterator *)
Inductive wrun : walk_it -> list (Z * event * rose T) -> walk_it -> Prop :=
| wr_nil w : wrun w [] w
| wr_cons w w1 w2 e n x tr :
    walk_events_next F nodes w = (w1, Some (e, n)) -> shows n x -> wrun w1 tr w2 ->
    wrun w ((wk_depth w, e, x) :: tr) w2.

Lemma wrun_app w1 w2 w3 tr1 tr2 : wrun w1 tr1 w2 -> wrun w2 tr2 w3 -> wrun w1 (tr1 ++ tr2) w3.
Proof. induction 1; simpl; auto. intros. econstructor; eauto. Qed.

Lemma wrun_app_inv w1 tr1 tr2 w3 : wrun w1 (tr1 ++ tr2) w3 ->
  exists w2, wrun w1 tr1 w2 /\ wrun w2 tr2 w3.
Proof.
  revert w1; induction tr1 as [|i tr1 IH]; simpl; intros w1 H.
  - exists w1. split; auto. constructor.
  - inversion H as [|? w1' ? e n x ? Hw Hs Hr]; subst.
    destruct (IH _ Hr) as (w2' & H6 & H7). exists w2'. split; auto.
    econstructor; eauto.
Qed.

Lemma shows_id n x : shows n x -> fst n = r_id x.
Proof. intros [H _]. unfold node_at in H. destruct (nth_error _ _); [|discriminate]. injection H as <-. auto. Qed.

(** The state at which an item is emitted is determined by the item. *)
Lemma wrun_cons_state w d e x tr w2 : wrun w ((d, e, x) :: tr) w2 -> w = WalkIt (Some (r_id x, e)) d.
Proof.
  intros H. inversion H as [|? w1' ? e0 n ? ? H5 H6 Hr]; subst. destruct w as [p dp]. simpl. f_equal.
  unfold walk_events_next in H5. simpl in H5. destruct p as [[i e']|]; [|discriminate].
  destruct (nth_error nodes i) as [lk|] eqn:E; [|discriminate].
  destruct (walk_step F lk e' dp) as [dz pos]. injection H5 as <- <- <-.
  apply shows_id in H6. simpl in H6. subst. auto.
Qed.

Definition after (par nxt : option nat) (dp : Z) : walk_it :=
  match nxt with
  | Some n => WalkIt (Some (n, Next)) dp
  | None => WalkIt (option_map (fun p => (p, Up)) par) (dp - 1)
  end.

Definition in_range (a b : Z) : Prop := (- isize_max F - 1 <= a /\ b <= isize_max F)%Z.

Lemma step_leave par prev nxt x dp :
  (- isize_max F - 1 <= dp - 1)%Z ->
  nth_error nodes (r_id x) = Some (links_of par prev nxt x) ->
  walk_events_next F nodes (WalkIt (Some (r_id x, Up)) dp) =
    (after par nxt dp, Some (Up, (r_id x, links_of par prev nxt x))).
Proof.
  intros Hb E. unfold walk_events_next. cbn [wk_node]. rewrite E. unfold walk_step. cbn [wk_depth l_next l_parent links_of].
  unfold after, isize_dec. destruct nxt as [n|]; auto.
  destruct (Z.leb_spec (- isize_max F - 1) (dp - 1)); [|lia]. destruct par; auto.
Qed.

Lemma step_enter par prev nxt x dp e : e <> Up ->
  in_range (dp - 1) (dp + 1) ->
  nth_error nodes (r_id x) = Some (links_of par prev nxt x) ->
  walk_events_next F nodes (WalkIt (Some (r_id x, e)) dp) =
    (match r_kids x with
     | [] => after par nxt dp
     | k :: _ => WalkIt (Some (r_id k, Down)) (dp + 1)
     end, Some (e, (r_id x, links_of par prev nxt x))).
Proof.
  intros He [Hb1 Hb2] E. unfold walk_events_next. cbn [wk_node]. rewrite E.
  unfold walk_step. cbn [wk_depth l_next l_parent l_first links_of].
  destruct e; [| |congruence].
  all: destruct (r_kids x) as [|k ks]; cbn [hd_id].
  all: unfold after, isize_dec, isize_inc.
  all: destruct (Z.leb_spec (- isize_max F - 1) (dp - 1)); [|lia].
  all: destruct (Z.leb_spec (dp + 1) (isize_max F)); [|lia].
  all: destruct nxt, par; auto.
Qed.

Definition size x : nat := length (preorder x).
Definition size_l l : nat := length (preorder_list l).
Lemma size_eq x : size x = S (size_l (r_kids x)).
Proof. destruct x; auto. Qed.
Lemma size_l_cons x l : size_l (x :: l) = size x + size_l l.
Proof. unfold size_l, size. simpl. rewrite app_length. auto. Qed.

Lemma wrun_tree x : forall par prev nxt dp e,
  e <> Up ->
  rep nodes (flat par prev nxt x) ->
  in_range (dp - 1) (dp + Z.of_nat (size x)) ->
  wrun (WalkIt (Some (r_id x, e)) dp) (trace dp e x) (after par nxt dp).
Proof.
  induction x as [id k d sp kids IH] using rose_ind'. intros par prev nxt dp e He Hr Hb.
  rewrite flat_head in Hr. apply rep_cons in Hr as [E Hk].
  rewrite size_eq in Hb. cbn [r_kids r_id] in *.
  assert (Hb' : in_range (dp - 1) (dp + 1)) by (unfold in_range in *; lia).
  rewrite trace_eq. cbn [r_kids].
  pose proof (step_enter par prev nxt (Nd id k d sp kids) _ _ He Hb' E) as Hs. cbn [r_id r_kids] in Hs.
  econstructor; [apply Hs|apply (shows_links par prev nxt (Nd id k d sp kids)); auto|].
  destruct kids as [|c ks]; [constructor|].
  (* the children *)
  assert (G : forall ks c pv e, e <> Up -> Forall (fun x => forall par prev nxt dp e, e <> Up ->
      rep nodes (flat par prev nxt x) -> in_range (dp - 1) (dp + Z.of_nat (size x)) ->
      wrun (WalkIt (Some (r_id x, e)) dp) (trace dp e x) (after par nxt dp)) (c :: ks) ->
      rep nodes (flat_list (Some id) pv (c :: ks) None) ->
      in_range dp (dp + 1 + Z.of_nat (size_l (c :: ks))) ->
      wrun (WalkIt (Some (r_id c, e)) (dp + 1)) (trace (dp + 1) e c ++ trace_list (dp + 1) ks)
           (WalkIt (Some (id, Up)) dp)).
  { clear. induction ks as [|c' ks IHks]; intros c pv e He' HF Hr Hb.
    all: inversion HF as [|? ? Hc Hks]; subst; cbn [flat_list] in Hr.
    all: apply rep_app in Hr as [Hr1 Hr2]; rewrite size_l_cons in Hb.
    - unfold trace_list. simpl. rewrite app_nil_r. unfold size_l in Hb. simpl in Hb.
      replace (WalkIt (Some (id, Up)) dp) with (after (Some id) None (dp + 1))
        by (unfold after; simpl; f_equal; lia).
      eapply Hc; eauto. unfold in_range in *. lia.
    - unfold trace_list. cbn [flat_map].
      eapply wrun_app; [eapply Hc; eauto; unfold in_range in *; lia|].
      cbn [hd_id after]. fold (trace_list (dp + 1) ks).
      eapply IHks; eauto; [congruence|]. unfold in_range in *; lia. }
  cbn [trace_kids]. eapply wrun_app.
  - eapply G; eauto; [congruence|]. unfold in_range in *. lia.
  - pose proof (step_leave par prev nxt (Nd id k d sp (c :: ks)) dp) as Hu. cbn [r_id] in Hu.
    change dp with (wk_depth (WalkIt (Some (id, Up)) dp)) at 2.
    econstructor; [apply Hu; auto; unfold in_range in *; lia| |constructor].
    apply (shows_links par prev nxt (Nd id k d sp (c :: ks))); auto.
Qed.

Lemma wrun_forest l : forall par prev dp,
  rep nodes (flat_list par prev l None) ->
  in_range (dp - 1) (dp + Z.of_nat (size_l l)) ->
  match l with
  | [] => True
  | x :: _ => wrun (WalkIt (Some (r_id x, Next)) dp) (trace_list dp l) (after par None dp)
  end.
Proof.
  induction l as [|x l IH]; auto. intros par prev dp Hr Hb. cbn [flat_list] in Hr.
  apply rep_app in Hr as [Hr1 Hr2]. rewrite size_l_cons in Hb.
  unfold trace_list. cbn [flat_map].
  assert (He : Next <> Up) by congruence.
  destruct l as [|y l].
  - cbn [flat_map]. rewrite app_nil_r. eapply wrun_tree; eauto. unfold in_range in *; lia.
  - eapply wrun_app; [eapply wrun_tree; eauto; unfold in_range in *; lia|].
    cbn [hd_id after]. apply IH with (prev := Some (r_id x)); auto. unfold in_range in *; lia.
Qed.

(** ** From runs to enumerations *)
Lemma walk_events_stuck d : enumerates (total (walk_events_next F nodes)) (WalkIt None d) [].
Proof.
  apply enumerates_stuck with (P := fun w => wk_node w = None); auto.
  intros w Hw. exists w. unfold total, walk_events_next. rewrite Hw. auto.
Qed.

Definition shows_ev (a : event * node T) (i : Z * event * rose T) : Prop :=
  fst a = snd (fst i) /\ shows (snd a) (snd i).
Definition shows_dp (a : Z * node T) (i : Z * event * rose T) : Prop :=
  fst a = fst (fst i) /\ shows (snd a) (snd i).

Lemma wrun_events w tr d : wrun w tr (WalkIt None d) ->
  enum_rel (total (walk_events_next F nodes)) shows_ev w tr.
Proof.
  intros H. remember (WalkIt None d) as w2. induction H; subst.
  - apply enum_rel_nil, walk_events_stuck.
  - eapply enum_rel_cons with (a := (e, n)); [|split; simpl; auto|apply IHwrun; auto].
    unfold total. rewrite H. auto.
Qed.

Definition ups (tr : list (Z * event * rose T)) : nat :=
  length (filter (fun i => negb (entering i)) tr).

Lemma walk_loop_fuel w tr d f1 f2 : wrun w tr (WalkIt None d) -> ups tr < f1 -> ups tr < f2 ->
  walk_loop f1 F nodes w = walk_loop f2 F nodes w.
Proof.
  intros H. remember (WalkIt None d) as w2. revert f1 f2.
  induction H as [|w w1 w2 e n x tr E Hs H IH]; subst; intros [|f1] [|f2] H1 H2; try lia.
  - reflexivity.
  - simpl. rewrite E. unfold ups in *. cbn [filter entering fst snd] in *.
    destruct e; auto. simpl in H1, H2. apply IH; auto; lia.
Qed.
Lemma walk_depths_loop_fuel w tr d f1 f2 : wrun w tr (WalkIt None d) -> ups tr < f1 -> ups tr < f2 ->
  walk_depths_loop f1 F nodes w = walk_depths_loop f2 F nodes w.
Proof.
  intros H. remember (WalkIt None d) as w2. revert f1 f2.
  induction H as [|w w1 w2 e n x tr E Hs H IH]; subst; intros [|f1] [|f2] H1 H2; try lia.
  - reflexivity.
  - simpl. rewrite E. unfold ups in *. cbn [filter entering fst snd] in *.
    destruct e; auto. simpl in H1, H2. apply IH; auto; lia.
Qed.

Lemma wrun_walk w tr d fuel : wrun w tr (WalkIt None d) -> ups tr < fuel ->
  enum_rel (walk_loop fuel F nodes) shows w (map snd (filter entering tr)).
Proof.
  intros H. remember (WalkIt None d) as w2. induction H as [|w w1 w2 e n x tr E Hs H IH]; subst; intros Hf.
  - apply enum_rel_nil.
    apply enumerates_stuck with (P := fun w => wk_node w = None); auto.
    intros w Hw. exists w. destruct fuel; [unfold ups in Hf; simpl in Hf; lia|]. simpl.
    unfold walk_events_next. rewrite Hw. auto.
  - assert (Hf' : ups tr < fuel).
    { unfold ups in *. cbn [filter] in Hf. destruct (negb _); simpl in Hf; lia. }
    specialize (IH eq_refl Hf').
    destruct fuel as [|fuel]; [lia|].
    assert (He : entering (wk_depth w, e, x) = true \/ e = Up) by (destruct e; auto).
    destruct He as [He | ->].
    + cbn [filter]. rewrite He. cbn [map snd]. eapply enum_rel_cons with (a := n); [|auto|apply IH].
      cbn [walk_loop]. rewrite E. destruct e; auto. discriminate.
    + cbn [filter entering fst snd]. eapply enum_rel_ext; [|apply IH].
      transitivity (walk_loop fuel F nodes w1); [cbn [walk_loop]; rewrite E; reflexivity|].
      unfold ups in Hf. simpl in Hf.
      eapply walk_loop_fuel; eauto; unfold ups; lia.
Qed.

Lemma wrun_depths w tr d fuel : wrun w tr (WalkIt None d) -> ups tr < fuel ->
  enum_rel (walk_depths_loop fuel F nodes) shows_dp w (filter entering tr).
Proof.
  intros H. remember (WalkIt None d) as w2. induction H as [|w w1 w2 e n x tr E Hs H IH]; subst; intros Hf.
  - apply enum_rel_nil.
    apply enumerates_stuck with (P := fun w => wk_node w = None); auto.
    intros w Hw. exists w. destruct fuel; [unfold ups in Hf; simpl in Hf; lia|]. simpl.
    unfold walk_events_next. rewrite Hw. auto.
  - assert (Hf' : ups tr < fuel).
    { unfold ups in *. cbn [filter] in Hf. destruct (negb _); simpl in Hf; lia. }
    specialize (IH eq_refl Hf').
    destruct fuel as [|fuel]; [lia|].
    assert (He : entering (wk_depth w, e, x) = true \/ e = Up) by (destruct e; auto).
    destruct He as [He | ->].
    + cbn [filter]. rewrite He.
      eapply enum_rel_cons with (a := (wk_depth w, n)); [|split; auto|apply IH].
      cbn [walk_depths_loop]. rewrite E. destruct e; auto. discriminate.
    + cbn [filter entering fst snd]. eapply enum_rel_ext; [|apply IH].
      transitivity (walk_depths_loop fuel F nodes w1); [cbn [walk_depths_loop]; rewrite E; reflexivity|].
      unfold ups in Hf. simpl in Hf.
      eapply walk_depths_loop_fuel; eauto; unfold ups; lia.
Qed.

Lemma ups_app a b : ups (a ++ b) = ups a + ups b.
Proof. unfold ups. rewrite filter_app, app_length. auto. Qed.
Lemma ups_trace dp e x : e <> Up -> ups (trace dp e x) <= size x.
Proof.
  revert dp e. induction x as [id k d sp kids IH] using rose_ind'. intros dp e He.
  rewrite trace_eq, size_eq. cbn [r_kids].
  change (?a :: ?b) with ([a] ++ b). rewrite ups_app.
  assert (ups [(dp, e, Nd id k d sp kids)] = 0) as -> by (destruct e; auto; congruence).
  destruct kids as [|c ks]; [simpl; unfold ups; simpl; lia|].
  rewrite ups_app. cbn [trace_kids]. rewrite ups_app, size_l_cons.
  assert (ups [(dp, Up, Nd id k d sp (c :: ks))] = 1) as -> by auto.
  inversion IH as [|? ? Hc Hks]; subst. specialize (Hc (dp + 1)%Z Down ltac:(congruence)).
  enough (ups (trace_list (dp + 1) ks) <= size_l ks) by lia.
  clear - Hks. unfold trace_list. induction Hks as [|y l Hy _ IHl]; simpl.
  - unfold ups; simpl; lia.
  - rewrite ups_app, size_l_cons. specialize (Hy (dp + 1)%Z Next ltac:(congruence)). lia.
Qed.
Lemma ups_trace_list dp l : ups (trace_list dp l) <= size_l l.
Proof.
  unfold trace_list. induction l as [|x l IH]; simpl; [unfold ups; simpl; lia|].
  rewrite ups_app, size_l_cons. pose proof (ups_trace dp Next x ltac:(congruence)). lia.
Qed.
End Walk.
