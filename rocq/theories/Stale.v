(** [children()] with a stale [last]. *)
From Coq Require Import Lia Sorted.
From Verif Require Import Base Pointer Index Tree Builder Hist Node Iter Spec SpecLast Rep Refine TreeRep Enum Walk Nav.

Section Stale.
Context {T : Type}.
Implicit Types s : list (rose T).
Implicit Types x y : rose T.
Implicit Types p : option (rose T).

Lemma settled_fresh' p s : NoDup (ids_l s) -> (settled p s <-> fresh p s).
Proof.
  unfold fresh, stored_last, settled, last_field.
  destruct s as [|x s _] using rev_ind.
  { destruct p as [[? [] ? ? ?]|]; simpl; tauto. }
  intros Hd. rewrite ids_l_app in Hd. apply NoDup_app_iff in Hd as (_ & Hd & _). simpl in Hd. rewrite app_nil_r in Hd.
  rewrite last_error_snoc, !last_of_snoc, last_id_app. simpl.
  destruct p as [[? [] ? ? ?]|]; simpl; try tauto;
    rewrite ?(wrapped_alone_lp x Hd), ?(never_wrapped_rlp x Hd); split; congruence.
Qed.

Lemma settled_dec p s : settled p s \/ ~ settled p s.
Proof.
  unfold settled. destruct (last_error s) as [x|]; auto.
  destruct p as [[? [] ? ? ?]|]; auto; try destruct (wrapped_alone x); auto; destruct (never_wrapped x); auto.
Qed.

Lemma unsettled_wrap p s x : last_error s = Some x -> ~ settled p s ->
  r_kind x = KWrap /\ r_kids x <> [] /\ (forall q, p = Some q -> r_kind q <> KWrap).
Proof.
  unfold settled. intros ->.
  destruct p as [[? [] ? ? ?]|]; destruct x as [? [] ? ? [|y ks]]; simpl; intros H;
    try (exfalso; apply H; auto; fail); repeat split; try congruence;
    intros q Eq; injection Eq as <-; simpl; congruence.
Qed.

Lemma last_error_split s x : last_error s = Some x -> exists s0, s = s0 ++ [x].
Proof.
  destruct s as [|y s _] using rev_ind; [discriminate|]. rewrite last_error_snoc. intros E. injection E as ->. eauto.
Qed.

Lemma nodup_kids s0 x : NoDup (ids_l (s0 ++ [x])) -> NoDup (ids_l (r_kids x)).
Proof.
  rewrite ids_l_app. intros Hd. apply NoDup_app_iff in Hd as (_ & Hd & _). destruct x as [i k d sp kids].
  simpl in *. rewrite app_nil_r in Hd. inversion Hd; auto.
Qed.

Lemma rlp_kwrap id d sp x w :
  rlp (Nd id KWrap d sp (x :: w)) = match last_of rlp (x :: w) None with Some i => i | None => id end.
Proof.
  unfold last_of. simpl. revert x; induction w as [|u w IH]; intros x; auto. simpl. apply IH.
Qed.
Lemma last_of_some f x w : exists i, last_of f (x :: w) None = Some i.
Proof.
  destruct w as [|y w _] using rev_ind; simpl; eauto.
  change (exists i, last_of f (x :: w ++ [y]) None = Some i).
  change (x :: w ++ [y]) with ((x :: w) ++ [y]). rewrite last_of_snoc. eauto.
Qed.
Lemma last_of_default f x y w : last_of f (x :: y :: w) None = last_of f (y :: w) None.
Proof. auto. Qed.

(** The stored [last] of a list is that of the list its back end sees. *)
Lemma stored_sees p s s' : NoDup (ids_l s) -> sees p s s' -> stored_last p s = last_id s' None.
Proof.
  intros Hd H. induction H as [s Hs|s x s' El Hn Hs IH].
  - apply (proj1 (settled_fresh' p s Hd)); auto.
  - destruct (unsettled_wrap _ _ _ El Hn) as (Hk & Hne & Hp).
    destruct (last_error_split _ _ El) as [s0 ->]. pose proof (nodup_kids _ _ Hd) as Hdk.
    rewrite <- IH by auto. clear IH Hs s' El. rewrite ids_l_app in Hd. apply NoDup_app_iff in Hd as (_ & Hd & _).
    destruct x as [i k d sp kids]. simpl in Hk, Hne, Hdk. subst k. destruct kids as [|y w]; [congruence|].
    cbn [r_kids]. destruct p as [q|]; unfold stored_last.
    + specialize (Hp q eq_refl). unfold last_field. destruct (r_kind q) eqn:Eq; try congruence.
      all: rewrite last_of_snoc, lp_kwrap.
      all: destruct w as [|z w];
        [|rewrite last_of_default; destruct (last_of_some lp z w) as [j ->]; auto].
      all: unfold last_of; simpl.
      all: assert (Hu : wrapped_alone y = false);
        [destruct (wrapped_alone y) eqn:Ey; auto; exfalso; apply Hn; unfold settled; rewrite last_error_snoc;
         destruct q as [? [] ? ? ?]; simpl in *; auto; congruence|].
      all: assert (Hdy : NoDup (ids y)) by (simpl in Hdk; rewrite app_nil_r in Hdk; auto).
      all: destruct (Nat.eqb_spec (lp y) (r_id y)) as [E|E]; auto;
        apply (wrapped_alone_lp y Hdy) in E; congruence.
    + rewrite last_of_snoc, rlp_kwrap. destruct (last_of_some rlp y w) as [j ->]. auto.
Qed.

Lemma sees_exists p : forall s, exists s', sees p s s'.
Proof.
  assert (G : forall n s, length (ids_l s) <= n -> exists s', sees p s s').
  { induction n as [|n IH]; intros s Hs.
    - destruct s as [|x s]; [|destruct x; simpl in Hs; lia]. exists []. constructor. unfold settled. simpl. auto.
    - destruct (settled_dec p s) as [H|H]; [exists s; constructor; auto|].
      destruct (last_error s) as [x|] eqn:El; [|exfalso; apply H; unfold settled; rewrite El; auto].
      destruct (last_error_split _ _ El) as [s0 E0].
      destruct (IH (r_kids x)) as [s' Hs'].
      { rewrite E0, ids_l_app, app_length in Hs. destruct x as [i k d sp kids]. simpl in *.
        rewrite app_nil_r in Hs. fold (ids_l kids) in Hs. lia. }
      exists s'. eapply sees_inside; eauto. }
  intros s. eapply G; eauto.
Qed.

Lemma sees_inside_ids p s s' i : sees p s s' -> In i (map r_id s') -> In i (ids_l s).
Proof.
  induction 1 as [s Hs|s x s' El Hn Hs IH]; intros Hi.
  - apply in_r_id_ids; auto.
  - specialize (IH Hi). destruct (last_error_split _ _ El) as [s0 ->]. rewrite ids_l_app, in_app_iff. right.
    destruct x; simpl in *. rewrite app_nil_r. auto.
Qed.

Lemma sees_disjoint p s s' i : NoDup (ids_l s) -> sees p s s' -> ~ settled p s ->
  In i (map r_id s') -> In i (map r_id s) -> False.
Proof.
  intros Hd H Hu Hi' Hi. destruct H as [s Hs|s x s' El Hn Hs]; [tauto|].
  apply (sees_inside_ids _ _ _ _ Hs) in Hi'. destruct (last_error_split _ _ El) as [s0 ->].
  rewrite ids_l_app in Hd. apply NoDup_app_iff in Hd as (_ & Hd2 & Hd3).
  rewrite map_app, in_app_iff in Hi. destruct x as [j k d sp kids]. simpl in *. rewrite app_nil_r in *. destruct Hi as [Hi|[<-|[]]].
  - apply (Hd3 i); auto. apply in_r_id_ids; auto.
  - inversion Hd2; auto.
Qed.

Lemma sees_nonempty p s s' : sees p s s' -> s <> [] -> s' <> [].
Proof.
  induction 1 as [s Hs|s x s' El Hn Hs IH]; auto. intros _. apply IH.
  apply (unsettled_wrap _ _ _ El Hn).
Qed.

(** What is seen when it is not [s] does not end in the last node of [s]. *)
Lemma sees_last p s s' x y : NoDup (ids_l s) -> sees p s s' -> ~ settled p s ->
  last_error s = Some x -> last_error s' = Some y -> r_id x <> r_id y.
Proof.
  intros Hd Hs Hu Ex Ey E. eapply sees_disjoint; eauto.
  - apply in_map_iff. exists y. split; [reflexivity|]. apply last_error_in; auto.
  - apply in_map_iff. exists x. split; auto. apply last_error_in; auto.
Qed.

Variable t : tree T.
Variable l : list (rose T).
Hypothesis Hrep : tree_rep t l.
Notation nodes := (t_nodes t).

Lemma sees_list q p s s' : In (q, s) (sibling_lists l) -> sees p s s' -> exists q', In (q', s') (sibling_lists l).
Proof.
  intros Hs H. revert q Hs. induction H as [s Hs|s x s' El Hn Hs IH]; intros q Hq; eauto.
  apply (IH (Some x)). apply kids_sibling_list. eapply sibling_list_in; eauto. apply last_error_in; auto.
Qed.

(** The two ends walk in different lists. *)
Definition apart (c : children_it) q1 s1 f q2 b s2 : Prop :=
  In (q1, s1 ++ f) (sibling_lists l) /\ In (q2, b ++ s2) (sibling_lists l) /\
  (forall i, In i (map r_id f) -> In i (map r_id b) -> False) /\
  c = ChildrenIt (hd_id f None) (last_id b None).

Theorem apart_drive sched : forall c q1 s1 f q2 b s2, apart c q1 s1 f q2 b s2 ->
  exists items, drive (total (children_next nodes)) (total (children_next_back nodes)) sched c = Ok items /\
    map (option_map view) items = map (option_map rview) (two_ended sched f b).
Proof.
  assert (Hdead : forall sched c, ch_first c = None \/ ch_last c = None ->
    exists items, drive (total (children_next nodes)) (total (children_next_back nodes)) sched c = Ok items /\
    map (option_map view) items = map (option_map rview) (two_ended sched [] [])).
  { clear sched. induction sched as [|e sched IH]; intros c Hc; simpl; [exists []; auto|].
    destruct e; unfold total at 1.
    - destruct (children_dead t c Hc) as (c' & -> & Hc'). destruct (IH c' Hc') as (it & -> & Hv).
      eexists. split; [reflexivity|]. simpl. congruence.
    - destruct (children_dead_back t c Hc) as (c' & -> & Hc'). destruct (IH c' Hc') as (it & -> & Hv).
      eexists. split; [reflexivity|]. simpl. congruence. }
  induction sched as [|e sched IH]; intros c q1 s1 f q2 b s2 (H1 & H2 & H3 & ->); [exists []; auto|].
  destruct f as [|x f].
  { cbn [hd_id]. destruct (Hdead (e :: sched) (ChildrenIt None (last_id b None))) as (it & E & Hv); simpl; auto.
    exists it. split; [exact E|]. rewrite Hv. reflexivity. }
  destruct b as [|y b _] using rev_ind.
  { destruct (Hdead (e :: sched) (ChildrenIt (hd_id (x :: f) None) None)) as (it & E & Hv); simpl; auto.
    exists it. split; [exact E|]. rewrite Hv. reflexivity. }
  pose proof (node_links _ _ _ _ _ _ Hrep H1) as E1.
  rewrite <- app_assoc in H2. pose proof (node_links _ _ _ _ _ _ Hrep H2) as E2.
  assert (Hxy : r_id x <> r_id y).
  { intros E. apply (H3 (r_id x)); [simpl; auto|]. rewrite E, map_app. apply in_app_iff. simpl; auto. }
  cbn [two_ended]. rewrite last_error_snoc, removelast_last, last_id_app. cbn [hd_id last_id].
  cbn [drive]. destruct e; unfold total at 1.
  - assert (Hst : children_next nodes (ChildrenIt (Some (r_id x)) (Some (r_id y))) =
      (ChildrenIt (hd_id f None) (Some (r_id y)), Some (r_id x, links_of (pid q1) (last_id s1 None) (hd_id f None) x))).
    { unfold children_next. cbn [ch_first ch_last]. rewrite E1. destruct (Nat.eqb_spec (r_id x) (r_id y)); [congruence|]. auto. }
    rewrite Hst.
    edestruct (IH (ChildrenIt (hd_id f None) (last_id (b ++ [y]) None)) q1 (s1 ++ [x]) f q2 (b ++ [y]) s2) as (it & E & Hv).
    { split; [|split; [|split]]; [rewrite <- app_assoc; apply H1
        |rewrite <- app_assoc; apply H2|intros i Hi; apply H3; simpl; auto|reflexivity]. }
    rewrite last_id_app in E.
    cbn [l_next links_of ch_first ch_last]. cbn [last_id] in E. rewrite E. eexists. split; [reflexivity|]. cbn [map option_map]. f_equal; auto.
    f_equal. apply view_links; auto.
  - assert (Hst : children_next_back nodes (ChildrenIt (Some (r_id x)) (Some (r_id y))) =
      (ChildrenIt (Some (r_id x)) (last_id b None), Some (r_id y, links_of (pid q2) (last_id b None) (hd_id s2 None) y))).
    { unfold children_next_back. cbn [ch_first ch_last]. rewrite E2. destruct (Nat.eqb_spec (r_id y) (r_id x)); [congruence|]. auto. }
    rewrite Hst.
    edestruct (IH (ChildrenIt (hd_id (x :: f) None) (last_id b None)) q1 s1 (x :: f) q2 b ([y] ++ s2)) as (it & E & Hv).
    { split; [|split; [|split]]; [apply H1|apply H2|
       intros i Hi Hi2; apply (H3 i); auto; rewrite map_app; apply in_app_iff; auto|reflexivity]. }
    cbn [l_prev links_of ch_first ch_last]. cbn [hd_id] in E. rewrite E. eexists. split; [reflexivity|]. cbn [map option_map]. f_equal; auto.
    f_equal. apply view_links; auto.
Qed.

Theorem stale_drive c p s s' sched : In (p, s) (sibling_lists l) -> is_children c p s -> sees p s s' -> ~ settled p s ->
  exists items, drive (total (children_next nodes)) (total (children_next_back nodes)) sched c = Ok items /\
    map (option_map view) items = map (option_map rview) (two_ended sched s s').
Proof.
  intros Hs -> Hse Hu. pose proof (nodup_siblings t l Hrep _ _ Hs) as Hd.
  destruct (sees_list _ _ _ _ Hs Hse) as [q' Hq'].
  apply apart_drive with (q1 := p) (s1 := []) (q2 := q') (s2 := []).
  split; [auto|]. split; [rewrite app_nil_r; auto|]. split.
  - intros i H1 H2. eapply sees_disjoint; eauto.
  - f_equal. apply stored_sees; auto.
Qed.

(** Reverse iteration. *)
Lemma back_enum b : forall q s2 i, In (q, b ++ s2) (sibling_lists l) ->
  (forall y, In y b -> i = r_id y -> hd_id b None = Some i) ->
  enum_rel (total (children_next_back nodes)) (shows nodes) (ChildrenIt (Some i) (last_id b None)) (rev b).
Proof.
  assert (Hst : forall c, ch_first c = None \/ ch_last c = None -> enumerates (total (children_next_back nodes)) c []).
  { intros c H. apply enumerates_stuck with (P := fun c => ch_first c = None \/ ch_last c = None); auto.
    clear. intros c H. destruct (children_dead_back t c H) as (c' & E & H'). exists c'. unfold total. rewrite E. auto. }
  induction b as [|y b IH] using rev_ind; intros q s2 i Hs Hi.
  - apply enum_rel_nil, Hst. simpl. auto.
  - rewrite rev_app_distr, last_id_app. cbn [rev app last_id].
    pose proof Hs as Hs'. rewrite <- app_assoc in Hs'. pose proof (node_links _ _ _ _ _ _ Hrep Hs') as E.
    eapply enum_rel_cons with (a := (r_id y, links_of (pid q) (last_id b None) (hd_id s2 None) y)).
    + unfold total, children_next_back. cbn [ch_first ch_last]. rewrite E. reflexivity.
    + apply shows_links; auto.
    + destruct (Nat.eqb_spec (r_id y) i) as [<-|Hne].
      * specialize (Hi y ltac:(apply in_app_iff; simpl; auto) eq_refl).
        destruct b as [|z b]; [apply enum_rel_nil, Hst; simpl; auto|]. exfalso.
        pose proof (nodup_r_id t l Hrep _ _ Hs) as Hd. simpl in Hi, Hd. injection Hi as Hi.
        inversion Hd as [|? ? Hnin]; subst. apply Hnin. rewrite Hi, map_app. apply in_app_iff. left.
        rewrite map_app. apply in_app_iff. simpl; auto.
      * cbn [l_prev links_of]. apply (IH q ([y] ++ s2)); [rewrite <- app_assoc in Hs; auto|].
        intros z Hz ->. specialize (Hi z ltac:(apply in_app_iff; auto) eq_refl).
        destruct b as [|u b]; [destruct Hz|]. auto.
Qed.

Theorem rev_enum c p s s' : In (p, s) (sibling_lists l) -> is_children c p s -> sees p s s' ->
  enum_rel (total (children_next_back nodes)) (shows nodes) c (rev s').
Proof.
  intros Hs -> Hse. pose proof (nodup_siblings t l Hrep _ _ Hs) as Hd.
  destruct (sees_list _ _ _ _ Hs Hse) as [q' Hq'].
  rewrite (stored_sees _ _ _ Hd Hse). destruct s as [|x s].
  - assert (s' = []) as ->. { inversion Hse; subst; auto. discriminate. }
    apply enum_rel_nil.
    apply enumerates_stuck with (P := fun c => ch_first c = None \/ ch_last c = None); simpl; auto.
    clear. intros c H. destruct (children_dead_back t c H) as (c' & E & H'). exists c'. unfold total. rewrite E. auto.
  - cbn [hd_id]. apply (back_enum s' q' []); [rewrite app_nil_r; auto|].
    intros y Hy Ey. destruct (settled_dec p (x :: s)) as [Hse'|Hu].
    + assert (s' = x :: s) as -> by (inversion Hse; subst; auto; tauto). auto.
    + exfalso. apply (sees_disjoint _ _ _ (r_id x) Hd Hse Hu); simpl; auto. rewrite Ey. apply in_map; auto.
Qed.
End Stale.
