(** Navigation and the iterators Children, Siblings, Ancestors on a finished tree. *)
From Coq Require Import Lia Permutation.
From Verif Require Import Base Pointer Index Tree Builder Hist Node Iter Spec Rep Marks Refine
  TreeRep Enum Walk WalkTree Bounds WalkThms.

Lemma last_error_snoc {A} (l : list A) x : last_error (l ++ [x]) = Some x.
Proof. induction l as [|y [|z l] IH]; simpl in *; auto. Qed.
Lemma last_error_id {T} (s : list (rose T)) : last_id s None = option_map r_id (last_error s).
Proof.
  destruct s as [|x s] using rev_ind; auto. rewrite last_id_app, last_error_snoc. auto.
Qed.
Lemma hd_error_id {T} (s : list (rose T)) : hd_id s None = option_map r_id (hd_error s).
Proof. destruct s; auto. Qed.

Section Nav.
Context {T : Type}.
Variable t : tree T.
Variable l : list (rose T).
Hypothesis Hrep : tree_rep t l.
Notation nodes := (t_nodes t).
Implicit Types x y z : rose T.
Implicit Types s : list (rose T).
Implicit Types p : option (rose T).

Lemma answers_id o y : node_opt nodes (Some (r_id y)) = o -> In y (preorder_list l) -> answers o (Some y).
Proof.
  intros <- Hy. destruct (in_sibling_lists _ _ Hy) as (p & s1 & s2 & Hs).
  pose proof (node_links _ _ _ _ _ _ Hrep Hs) as E. unfold node_opt, node_at. rewrite E.
  unfold answers. simpl. f_equal. apply view_links. auto.
Qed.

Lemma answers_opt (o : option nat) (r : option (rose T)) :
  o = option_map r_id r -> (forall y, r = Some y -> In y (preorder_list l)) ->
  answers (node_opt nodes o) r.
Proof.
  intros -> H. destruct r as [y|]; simpl; [|reflexivity]. eapply answers_id; eauto.
Qed.

Lemma at_node p s1 x s2 n :
  In (p, s1 ++ x :: s2) (sibling_lists l) -> tree_get t (r_id x) = Some n ->
  n = (r_id x, links_of (pid p) (last_id s1 None) (hd_id s2 None) x).
Proof.
  intros Hs E. pose proof (node_links _ _ _ _ _ _ Hrep Hs) as E2.
  unfold tree_get, node_at in E. rewrite E2 in E. congruence.
Qed.

Lemma parent_in p s : In (p, s) (sibling_lists l) -> forall y, p = Some y -> In y (preorder_list l).
Proof.
  intros [E|Hi] y ->.
  - congruence.
  - apply in_map_iff in Hi as (q & E & Hq). congruence.
Qed.

Lemma last_error_in {A} (s : list A) (y : A) : last_error s = Some y -> In y s.
Proof.
  destruct s as [|z s _] using rev_ind; [discriminate|]. rewrite last_error_snoc. intros E.
  injection E as ->. apply in_app_iff. simpl; auto.
Qed.

Theorem nav_links p s1 x s2 n :
  In (p, s1 ++ x :: s2) (sibling_lists l) -> tree_get t (r_id x) = Some n ->
  view n = rview x /\
  answers (node_parent nodes n) p /\
  answers (node_prev nodes n) (last_error s1) /\
  answers (node_next nodes n) (hd_error s2) /\
  answers (node_first nodes n) (hd_error (r_kids x)).
Proof.
  intros Hs E. pose proof (at_node _ _ _ _ _ Hs E) as ->.
  assert (Hin : forall y, In y (s1 ++ x :: s2) -> In y (preorder_list l)).
  { intros y Hy. eapply sibling_list_in; eauto. }
  split; [apply view_links; auto|].
  unfold node_parent, node_prev, node_next, node_first, links_of. simpl.
  repeat split; apply answers_opt.
  - destruct p; auto.
  - eapply parent_in; eauto.
  - apply last_error_id.
  - intros y Hy. apply Hin. apply in_app_iff. left. apply last_error_in; auto.
  - apply hd_error_id.
  - intros y Hy. apply Hin. apply in_app_iff. right. right. destruct s2; [discriminate|]. simpl in Hy. injection Hy as ->. simpl; auto.
  - apply hd_error_id.
  - intros y Hy. apply (preorder_list_kid l x).
    + apply Hin. apply in_app_iff. simpl; auto.
    + destruct (r_kids x); [discriminate|]. simpl in Hy. injection Hy as ->. simpl; auto.
Qed.

Theorem nav_first : answers (tree_first t) (hd_error l).
Proof.
  unfold tree_first. rewrite (tr_first _ _ Hrep). apply answers_opt; [apply hd_error_id|].
  intros y Hy. apply preorder_list_top. destruct l; [discriminate|]. simpl in Hy. injection Hy as ->. simpl; auto.
Qed.

(** ** last *)
Definition stored_last p s : option nat :=
  match p with
  | None => last_of rlp s None
  | Some y => last_field (r_kind y) s
  end.
Definition fresh p s : Prop := stored_last p s = last_id s None.

Lemma nodup_siblings p s : In (p, s) (sibling_lists l) -> NoDup (ids_l s).
Proof.
  intros H. pose proof (tr_nodup _ _ Hrep) as Hd. destruct H as [E|Hi].
  - injection E as <- <-. auto.
  - apply in_map_iff in Hi as (q & E & Hq). injection E as <- <-.
    revert Hd Hq. clear.
    assert (G : forall r, NoDup (ids r) -> In q (preorder r) -> NoDup (ids_l (r_kids q))).
    { induction r as [id k d sp kids IH] using rose_ind'. intros Hd Hq.
      simpl in Hd. inversion Hd as [|? ? _ Hd']; subst.
      simpl in Hq. destruct Hq as [<-|Hq]; auto.
      apply in_flat_map in Hq as (c & Hc & Hq). eapply Forall_forall in IH; eauto. apply IH; auto.
      clear - Hd' Hc. apply in_split in Hc as (a & b & ->). rewrite flat_map_app in Hd'.
      apply NoDup_app_iff in Hd' as (_ & Hd' & _). simpl in Hd'. apply NoDup_app_iff in Hd'. tauto. }
    intros Hd Hq. apply in_flat_map in Hq as (r & Hr & Hq). apply (G r); auto.
    apply in_split in Hr as (a & b & ->). unfold ids_l in Hd. rewrite flat_map_app in Hd.
    apply NoDup_app_iff in Hd as (_ & Hd & _). simpl in Hd. apply NoDup_app_iff in Hd. tauto.
Qed.

Lemma nodup_r_id p s : In (p, s) (sibling_lists l) -> NoDup (map r_id s).
Proof.
  intros Hs. pose proof (nodup_siblings _ _ Hs) as Hd. clear Hs. revert Hd.
  induction s as [|z s IH]; simpl; [constructor|].
  intros Hd. apply NoDup_app_iff in Hd as (H1 & H2 & H3). constructor; auto.
  intros Hi. apply (H3 (r_id z)); [destruct z; simpl; auto|]. apply in_r_id_ids; auto.
Qed.

Lemma rlp_in x : In (rlp x) (ids x).
Proof.
  induction x as [id k d sp kids IH] using rose_ind'. destruct k; simpl; auto.
  induction kids as [|y w IHw]; simpl; auto. inversion IH as [|? ? Hy Hw]; subst.
  destruct w as [|z w].
  - right. apply in_app_iff. auto.
  - specialize (IHw Hw). simpl in *. rewrite !in_app_iff in *. tauto.
Qed.

Lemma wrapped_alone_lp x : NoDup (ids x) -> (wrapped_alone x = true <-> lp x = r_id x).
Proof.
  induction x as [id k d sp kids IH] using rose_ind'. intros Hd. destruct k; try (simpl; tauto).
  destruct kids as [|y [|z kids]]; [simpl; tauto| |].
  - inversion IH as [|? ? Hy _]; subst. simpl in Hd. rewrite app_nil_r in Hd. inversion Hd as [|? ? Hn Hd']; subst.
    specialize (Hy Hd'). simpl. destruct (Nat.eqb_spec (lp y) (r_id y)) as [E|E]; [tauto|]. split; intros G; [tauto|].
    exfalso. apply Hn. rewrite <- G. apply lp_in.
  - split; [discriminate|]. intros E. exfalso. cbn [r_id] in E. simpl in Hd. inversion Hd as [|? ? Hn _]; subst.
    apply Hn. clear -E. cbn [lp] in E. set (go := fix go l := match l with [] => id | [x] => lp x | _ :: l => go l end) in E.
    assert (G : forall m a, In (go (a :: m)) (ids_l (a :: m))).
    { clear. induction m as [|b m IHl]; intros a; simpl.
      - rewrite app_nil_r. apply lp_in.
      - rewrite in_app_iff. right. apply (IHl b). }
    change (go (y :: z :: kids) = id) in E. rewrite <- E. apply (G (z :: kids) y).
Qed.

Lemma never_wrapped_rlp x : NoDup (ids x) -> (never_wrapped x = true <-> rlp x = r_id x).
Proof.
  destruct x as [id k d sp kids]. intros Hd. destruct k; try (simpl; tauto).
  destruct kids as [|y kids]; [simpl; tauto|].
  split; [discriminate|]. intros E. exfalso. cbn [r_id] in E. simpl in Hd. inversion Hd as [|? ? Hn _]; subst.
  apply Hn. clear -E. cbn [rlp] in E. set (go := fix go l := match l with [] => id | [x] => rlp x | _ :: l => go l end) in E.
  assert (G : forall m a, In (go (a :: m)) (ids_l (a :: m))).
  { clear. induction m as [|b m IHl]; intros a; simpl.
    - rewrite app_nil_r. apply rlp_in.
    - rewrite in_app_iff. right. apply (IHl b). }
  change (go (y :: kids) = id) in E. rewrite <- E. apply (G kids y).
Qed.

Lemma settled_fresh p s : In (p, s) (sibling_lists l) -> (settled p s <-> fresh p s).
Proof.
  intros Hs. apply nodup_siblings in Hs. revert Hs.
  unfold fresh, stored_last, settled, last_field.
  destruct s as [|x s _] using rev_ind.
  { destruct p as [[? [] ? ? ?]|]; simpl; tauto. }
  intros Hd. rewrite ids_l_app in Hd. apply NoDup_app_iff in Hd as (_ & Hd & _). simpl in Hd. rewrite app_nil_r in Hd.
  rewrite last_error_snoc, !last_of_snoc, last_id_app. simpl.
  destruct p as [[? [] ? ? ?]|]; simpl; try tauto;
    rewrite ?(wrapped_alone_lp x Hd), ?(never_wrapped_rlp x Hd); split; congruence.
Qed.

(** A stale [last] is not among the siblings. *)
Lemma stored_last_in p s i : NoDup (ids_l s) -> stored_last p s = Some i -> In i (map r_id s) ->
  last_id s None = Some i.
Proof.
  destruct s as [|x s _] using rev_ind.
  { destruct p as [[? [] ? ? ?]|]; discriminate. }
  intros Hd E Hi. rewrite last_id_app. simpl.
  assert (Hp : In i (ids x)).
  { destruct p as [[? [] ? ? ?]|]; unfold stored_last, last_field in E; simpl in E;
      rewrite ?last_of_snoc, ?last_id_app in E; simpl in E; injection E as <-;
      try apply lp_in; try apply rlp_in; destruct x; simpl; auto. }
  rewrite ids_l_app in Hd. apply NoDup_app_iff in Hd as (_ & Hd2 & Hd3).
  rewrite map_app in Hi. apply in_app_iff in Hi as [Hi|[<-|[]]]; auto.
  exfalso. apply (Hd3 i). { apply in_r_id_ids; auto. } simpl. rewrite app_nil_r. auto.
Qed.

Lemma stored_last_some p s : s <> [] -> exists i, stored_last p s = Some i.
Proof.
  destruct s as [|x s _] using rev_ind; [congruence|]. intros _.
  destruct p as [[? [] ? ? ?]|]; unfold stored_last, last_field; simpl;
    rewrite ?last_of_snoc, ?last_id_app; simpl; eauto.
Qed.

(** The [children()] iterator of a parent. *)
Definition is_children (c : children_it) p s : Prop :=
  c = ChildrenIt (hd_id s None) (stored_last p s).

Lemma tree_children_is : is_children (tree_children t) None l.
Proof. unfold is_children, tree_children. rewrite (tr_first _ _ Hrep), (tr_last _ _ Hrep). auto. Qed.

Lemma node_children_is x n : In x (preorder_list l) -> tree_get t (r_id x) = Some n ->
  is_children (node_children n) (Some x) (r_kids x).
Proof.
  intros Hx E. destruct (in_sibling_lists _ _ Hx) as (p & s1 & s2 & Hs).
  pose proof (at_node _ _ _ _ _ Hs E) as ->. reflexivity.
Qed.

(** Forward iteration is right whatever [last] is. *)
Lemma children_dead c : ch_first c = None \/ ch_last c = None ->
  exists c', children_next nodes c = (c', None) /\ (ch_first c' = None \/ ch_last c' = None).
Proof.
  intros H. destruct c as [f la]. unfold children_next. simpl in *.
  destruct f as [f|]; [|exists (ChildrenIt None la); auto].
  destruct H as [H|H]; [discriminate|]. subst la.
  destruct (nth_error nodes f); eexists; split; eauto; simpl; auto.
Qed.
Lemma children_dead_back c : ch_first c = None \/ ch_last c = None ->
  exists c', children_next_back nodes c = (c', None) /\ (ch_first c' = None \/ ch_last c' = None).
Proof.
  intros H. destruct c as [f la]. unfold children_next_back. simpl in *.
  destruct la as [la|]; [|exists (ChildrenIt f None); auto].
  destruct H as [H|H]; [|discriminate]. subst f.
  destruct (nth_error nodes la); eexists; split; eauto; simpl; auto.
Qed.

Lemma children_stuck c : ch_first c = None \/ ch_last c = None ->
  enumerates (total (children_next nodes)) c [].
Proof.
  intros H. apply enumerates_stuck with (P := fun c => ch_first c = None \/ ch_last c = None); auto.
  clear. intros c H. destruct (children_dead c H) as (c' & E & H'). exists c'.
  unfold total. rewrite E. auto.
Qed.

Lemma children_forward p s1 s2 la :
  In (p, s1 ++ s2) (sibling_lists l) ->
  (forall i, la = Some i -> In i (map r_id s2) -> last_id s2 None = Some i) ->
  la <> None ->
  enum_rel (total (children_next nodes)) (shows nodes) (ChildrenIt (hd_id s2 None) la) s2.
Proof.
  revert s1. induction s2 as [|x s2 IH]; intros s1 Hs Hla Hn.
  - apply enum_rel_nil, children_stuck. auto.
  - pose proof (node_links _ _ _ _ _ _ Hrep Hs) as E.
    destruct la as [la|]; [|congruence]. cbn [hd_id].
    eapply enum_rel_cons with (a := (r_id x, links_of (pid p) (last_id s1 None) (hd_id s2 None) x)).
    + unfold total, children_next. cbn [ch_first ch_last]. rewrite E. reflexivity.
    + apply shows_links; auto.
    + destruct (Nat.eqb_spec (r_id x) la) as [<-|Hne].
      * specialize (Hla _ eq_refl ltac:(simpl; auto)).
        destruct s2 as [|y s2]; [apply enum_rel_nil, children_stuck; auto|].
        exfalso. simpl in Hla.
        assert (Hd : NoDup (map r_id (x :: y :: s2))).
        { pose proof (nodup_r_id _ _ Hs) as Hd. rewrite map_app in Hd.
          apply NoDup_app_iff in Hd. tauto. }
        destruct (last_id_cons_some y s2 (Some (r_id x))) as (i & Ei & Hi).
        cbn [last_id] in Ei, Hla. rewrite Hla in Ei. injection Ei as <-.
        inversion Hd as [|? ? Hnin]; subst. apply Hnin. auto.
      * apply (IH (s1 ++ [x])); [rewrite <- app_assoc; auto| |congruence].
        intros i Ei Hi. injection Ei as <-. specialize (Hla _ eq_refl ltac:(simpl; auto)).
        destruct s2; [destruct Hi|]. auto.
Qed.

Theorem children_thm c p s : In (p, s) (sibling_lists l) -> is_children c p s ->
  enum_rel (total (children_next nodes)) (shows nodes) c s.
Proof.
  intros Hs ->. destruct s as [|x s].
  - apply enum_rel_nil, children_stuck. auto.
  - apply (children_forward p []); auto.
    + intros i E Hi. eapply stored_last_in; eauto. eapply nodup_siblings; eauto.
    + destruct (stored_last_some p (x :: s)) as [i ->]; congruence.
Qed.

(** ** Both ends *)
(** A state of the iterator standing for the remaining children [s]. *)
Definition holds (c : children_it) p s1 s s2 : Prop :=
  In (p, s1 ++ s ++ s2) (sibling_lists l) /\
  match s with
  | [] => ch_first c = None \/ ch_last c = None
  | _ => c = ChildrenIt (hd_id s None) (last_id s None)
  end.

Lemma holds_front c p s1 s s2 : holds c p s1 s s2 ->
  exists c' o, children_next nodes c = (c', o) /\
  match s with
  | [] => o = None /\ holds c' p s1 [] s2
  | x :: s => (exists n, o = Some n /\ shows nodes n x) /\ holds c' p (s1 ++ [x]) s s2
  end.
Proof.
  intros [Hs H]. destruct s as [|x s].
  - destruct (children_dead _ H) as (c' & E & H'). exists c', None. repeat split; auto.
  - subst c. pose proof Hs as Hs'. simpl in Hs'. pose proof (node_links _ _ _ _ _ _ Hrep Hs') as E.
    destruct (last_id_cons_some x s None) as (i & Ei & Hi). rewrite Ei.
    unfold children_next. cbn [ch_first ch_last hd_id]. rewrite E.
    eexists. eexists. split; [reflexivity|]. split.
    + eexists. split; [reflexivity|]. apply shows_links; auto.
    + split; [rewrite <- app_assoc; auto|].
      destruct (Nat.eqb_spec (r_id x) i) as [<-|Hne].
      * destruct s as [|y s]; [simpl; auto|]. exfalso.
        pose proof (nodup_r_id _ _ Hs) as Hd. rewrite !map_app in Hd.
        apply NoDup_app_iff in Hd as (_ & Hd & _). apply NoDup_app_iff in Hd as (Hd & _ & _).
        simpl in Ei. destruct (last_id_cons_some y s (Some (r_id x))) as (j & Ej & Hj).
        cbn [last_id] in Ej, Ei. rewrite Ej in Ei. injection Ei as ->.
        inversion Hd as [|? ? Hnin]; subst. apply Hnin. auto.
      * destruct s as [|y s]; [simpl in Ei; congruence|]. cbn [l_next links_of hd_id].
        f_equal. rewrite <- Ei. reflexivity.
Qed.

Lemma holds_back c p s1 s s2 : holds c p s1 s s2 ->
  exists c' o, children_next_back nodes c = (c', o) /\
  match last_error s with
  | None => o = None /\ holds c' p s1 [] s2
  | Some x => (exists n, o = Some n /\ shows nodes n x) /\ holds c' p s1 (removelast s) ([x] ++ s2)
  end.
Proof.
  intros [Hs H]. destruct s as [|x s _] using rev_ind.
  - destruct (children_dead_back _ H) as (c' & E & H'). exists c', None. repeat split; auto.
  - assert (H0 : c = ChildrenIt (hd_id (s ++ [x]) None) (Some (r_id x))).
    { destruct (s ++ [x]) as [|z q] eqn:Ez; [destruct s; discriminate|]. rewrite <- Ez in *.
      rewrite H, last_id_app. auto. }
    clear H. subst c. rewrite last_error_snoc, removelast_last.
    pose proof Hs as Hs'. rewrite <- app_assoc, app_assoc in Hs'. cbn [app] in Hs'.
    pose proof (node_links _ _ _ _ _ _ Hrep Hs') as E.
    assert (Hh : exists i, hd_id (s ++ [x]) None = Some i /\ (s = [] -> i = r_id x) /\
                  (s <> [] -> hd_id s None = Some i)).
    { destruct s; simpl; eexists; repeat split; congruence. }
    destruct Hh as (i & Ei & Hi1 & Hi2). rewrite Ei.
    unfold children_next_back. cbn [ch_first ch_last]. rewrite E.
    eexists. eexists. split; [reflexivity|]. split.
    + eexists. split; [reflexivity|]. apply shows_links; auto.
    + split; [rewrite <- !app_assoc in *; auto|].
      destruct (Nat.eqb_spec (r_id x) i) as [<-|Hne].
      * destruct s as [|y s]; [simpl; auto|]. exfalso.
        pose proof (nodup_r_id _ _ Hs) as Hd. rewrite !map_app in Hd.
        apply NoDup_app_iff in Hd as (_ & Hd & _). apply NoDup_app_iff in Hd as (Hd & _ & _).
        specialize (Hi2 ltac:(congruence)). simpl in Hi2. injection Hi2 as Hi2.
        simpl in Hd. inversion Hd as [|? ? Hnin]; subst. apply Hnin. rewrite Hi2.
        apply in_app_iff. simpl; auto.
      * destruct s as [|y s]; [exfalso; apply Hne; symmetry; auto|]. rewrite Hi2 by congruence.
        cbn [l_prev links_of]. f_equal. rewrite last_id_app.
        destruct (last_id_cons_some y s (last_id s1 None)) as (j & Ej & _).
        destruct (last_id_cons_some y s None) as (j' & Ej' & _).
        cbn [last_id] in *. reflexivity.
Qed.

Lemma is_children_holds c p s : In (p, s) (sibling_lists l) -> is_children c p s -> fresh p s ->
  holds c p [] s [].
Proof.
  intros Hs -> Hf. split; [simpl; rewrite app_nil_r; auto|]. rewrite Hf. destruct s; auto.
Qed.

Theorem children_deque sched : forall c p s1 s s2, holds c p s1 s s2 ->
  exists items, drive (total (children_next nodes)) (total (children_next_back nodes)) sched c = Ok items /\
    map (option_map view) items = map (option_map rview) (deque sched s).
Proof.
  induction sched as [|b sched IH]; intros c p s1 s s2 H; simpl.
  - exists []. auto.
  - destruct b; unfold total at 1.
    + destruct (holds_front _ _ _ _ _ H) as (c' & o & E & Ho). rewrite E. destruct s as [|x s].
      * destruct Ho as [-> Ho]. destruct (IH _ _ _ _ _ Ho) as (it & -> & Hv).
        eexists. split; [reflexivity|]. simpl. congruence.
      * destruct Ho as [(n & -> & Hn) Ho]. destruct (IH _ _ _ _ _ Ho) as (it & -> & Hv).
        eexists. split; [reflexivity|]. simpl. rewrite Hv, (proj2 Hn). auto.
    + destruct (holds_back _ _ _ _ _ H) as (c' & o & E & Ho). rewrite E.
      destruct (last_error s) as [x|].
      * destruct Ho as [(n & -> & Hn) Ho]. destruct (IH _ _ _ _ _ Ho) as (it & -> & Hv).
        eexists. split; [reflexivity|]. simpl. rewrite Hv, (proj2 Hn). auto.
      * destruct Ho as [-> Ho]. destruct (IH _ _ _ _ _ Ho) as (it & -> & Hv).
        eexists. split; [reflexivity|]. simpl. congruence.
Qed.

(** ** Siblings and ancestors *)
Theorem siblings_thm p s1 x s2 n :
  In (p, s1 ++ x :: s2) (sibling_lists l) -> tree_get t (r_id x) = Some n ->
  enum_rel (total (siblings_next nodes)) (shows nodes) (node_siblings n) (x :: s2).
Proof.
  intros Hs E. pose proof (at_node _ _ _ _ _ Hs E) as ->. clear E. unfold node_siblings.
  revert s1 x Hs. induction s2 as [|y s2 IH]; intros s1 x Hs.
  all: pose proof (node_links _ _ _ _ _ _ Hrep Hs) as E.
  all: eapply enum_rel_cons; [reflexivity|apply shows_links; auto|].
  - cbn [snd l_next links_of hd_id node_opt]. apply enum_rel_nil.
    apply enumerates_stuck with (P := fun q => q = None); auto. intros ? ->. exists None. auto.
  - cbn [snd l_next links_of hd_id node_opt].
    assert (Hs' : In (p, (s1 ++ [x]) ++ y :: s2) (sibling_lists l)) by (rewrite <- app_assoc; auto).
    specialize (IH _ _ Hs'). pose proof (node_links _ _ _ _ _ _ Hrep Hs') as E'.
    unfold node_at. rewrite E'. apply IH.
Qed.

Lemma ancestry_in x ch : ancestry l x ch -> In x (preorder_list l).
Proof.
  induction 1; [apply preorder_list_top; auto|]. eapply preorder_list_kid; eauto.
Qed.

Theorem ancestors_thm x ch : ancestry l x ch -> forall n, tree_get t (r_id x) = Some n ->
  enum_rel (total (ancestors_next nodes)) (shows nodes) (node_ancestors n) ch.
Proof.
  unfold node_ancestors. induction 1 as [x Hx|x y ch Hy IH Hx]; intros n E.
  - apply in_split in Hx as (s1 & s2 & El).
    assert (Hs : In (None, s1 ++ x :: s2) (sibling_lists l)) by (left; rewrite El; auto).
    pose proof (at_node _ _ _ _ _ Hs E) as ->.
    eapply enum_rel_cons; [reflexivity|apply shows_links; eapply node_links; eauto|].
    cbn [node_parent snd l_parent links_of pid option_map node_opt]. apply enum_rel_nil.
    apply enumerates_stuck with (P := fun q => q = None); auto. intros ? ->. exists None. auto.
  - pose proof (ancestry_in _ _ Hy) as Hyp. pose proof (kids_sibling_list _ _ Hyp) as Hs.
    apply in_split in Hx as (s1 & s2 & Ek). rewrite Ek in Hs.
    pose proof (at_node _ _ _ _ _ Hs E) as ->.
    eapply enum_rel_cons; [reflexivity|apply shows_links; eapply node_links; eauto|].
    unfold node_parent. cbn [snd l_parent links_of pid option_map node_opt].
    destruct (in_sibling_lists _ _ Hyp) as (p' & a1 & a2 & Ha).
    pose proof (node_links _ _ _ _ _ _ Hrep Ha) as Ey. unfold node_at. rewrite Ey.
    apply IH. unfold tree_get, node_at. rewrite Ey. auto.
Qed.

Lemma ancestry_exists x : In x (preorder_list l) -> exists ch, ancestry l x ch.
Proof.
  intros H. apply in_flat_map in H as (r & Hr & Hx).
  assert (G : forall r ch, ancestry l r ch -> In x (preorder r) -> exists ch, ancestry l x ch).
  { clear. induction r as [id k d sp kids IH] using rose_ind'. intros ch Hr Hx.
    simpl in Hx. destruct Hx as [<-|Hx]; eauto.
    apply in_flat_map in Hx as (v & Hv & Hx). eapply Forall_forall in IH; [|apply Hv].
    eapply IH; [|apply Hx]. eapply anc_child; eauto. }
  eapply G; eauto. constructor; auto.
Qed.
End Nav.

(** The depth of a node is the number of its strict ancestors. *)
Lemma preorder_depth_ancestry {T} (l : list (rose T)) k x :
  In (k, x) (flat_map (preorder_depth 0) l) ->
  exists ch, ancestry l x ch /\ (k = Z.of_nat (length ch) - 1)%Z.
Proof.
  intros H. apply in_flat_map in H as (r & Hr & Hx).
  assert (G : forall r dp ch, ancestry l r ch -> (dp = Z.of_nat (length ch) - 1)%Z ->
     In (k, x) (preorder_depth dp r) -> exists ch, ancestry l x ch /\ (k = Z.of_nat (length ch) - 1)%Z).
  { clear. induction r as [id kk d sp kids IH] using rose_ind'. intros dp ch Hr Hd Hx.
    simpl in Hx. destruct Hx as [E|Hx].
    - injection E as <- <-. eauto.
    - apply in_flat_map in Hx as (v & Hv & Hx). eapply Forall_forall in IH; [|apply Hv].
      apply (IH (dp + 1)%Z (v :: ch)); auto; [eapply anc_child; eauto|]. cbn [length]. lia. }
  eapply (G r); [constructor; auto| |apply Hx]. auto.
Qed.
