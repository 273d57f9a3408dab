(** Property theorems: C07, C08, C09, C24 said of the nodes themselves.

    The statements below use no document: they relate what [children()], [parent()], [next()],
    [prev()], [first()], [last()] and the roots of one tree answer to each other.  [finished F ops t l]
    only says that [t] was built. *)
From Coq Require Import Lia Permutation Sorted.
From Verif Require Import Base Pointer Index Tree Builder Hist Node Iter Spec SpecLast Demo PropsWith.
From Verif Require Rep Marks Refine TreeRep Enum Walk WalkTree Bounds WalkGen WalkThms Nav Order Direct Stale.

(** ** C07 *)

(** What [n.children()] yields: exactly the nodes of the tree whose [parent()] is [n], each once, in the order they
    were added (a node's number says how many nodes were made before it). *)
Theorem C07_exactly : forall T F (ops : list (op T)) t l i n,
  finished F ops t l -> tree_get t i = Some n ->
  exists items,
    enumerates (total (children_next (t_nodes t))) (node_children n) items /\
    StronglySorted lt (map fst items) /\
    forall m, In m items <-> (tree_get t (fst m) = Some m /\ node_parent (t_nodes t) m = Some n).
Proof.
  intros T F ops t l i n H E. destruct (Direct.node_list F ops t l H i n E) as (x & Hs & Hx & Ex & Hc).
  destruct (Nav.children_thm t l (WalkThms.fin_rep F ops t l H) _ _ _ Hs Hc) as (items & He & HF).
  exists items. split; auto. destruct (Direct.items_exact F ops t l H _ _ _ Hs HF) as [H1 H2]. split; auto.
  intros m. rewrite H2. simpl. rewrite Ex. tauto.
Qed.
Print Assumptions C07_exactly.

(** [tree.children()]: exactly the nodes with no parent. *)
Theorem C07_roots_exactly : forall T F (ops : list (op T)) t l,
  finished F ops t l ->
  exists items,
    enumerates (total (children_next (t_nodes t))) (tree_children t) items /\
    StronglySorted lt (map fst items) /\
    forall m, In m items <-> (tree_get t (fst m) = Some m /\ node_parent (t_nodes t) m = None).
Proof.
  intros T F ops t l H.
  assert (Hs : In (None, l) (sibling_lists l)) by (left; auto).
  destruct (Nav.children_thm t l (WalkThms.fin_rep F ops t l H) _ _ _ Hs (Nav.tree_children_is t l (WalkThms.fin_rep F ops t l H)))
    as (items & He & HF).
  exists items. split; auto. apply (Direct.items_exact F ops t l H _ _ _ Hs HF).
Qed.
Print Assumptions C07_roots_exactly.

(** Following [parent()] [k] times. *)
Fixpoint climb {T} (nodes : list (links T)) (k : nat) (n : node T) : option (node T) :=
  match k with
  | O => Some n
  | S k => match node_parent nodes n with None => None | Some m => climb nodes k m end
  end.

(** From any node, [parent()] leads to a root in fewer steps than there are nodes. *)
Theorem C07_climbs : forall T F (ops : list (op T)) t l i n,
  finished F ops t l -> tree_get t i = Some n ->
  exists k r, k < length (t_nodes t) /\ climb (t_nodes t) k n = Some r /\ node_parent (t_nodes t) r = None /\
    climb (t_nodes t) (S k) n = None.
Proof.
  intros T F ops t l i n H E. pose proof (WalkThms.fin_rep F ops t l H) as Hrep.
  destruct (Direct.get_rose F ops t l H _ _ E) as (x & Hx & <-).
  destruct (Nav.ancestry_exists l x Hx) as [ch Hch].
  assert (G : forall x ch, ancestry l x ch -> forall n, tree_get t (r_id x) = Some n ->
    incl ch (preorder_list l) /\ (forall y, In y ch -> Walk.size x <= Walk.size y) /\ NoDup ch /\
    exists r, climb (t_nodes t) (pred (length ch)) n = Some r /\ node_parent (t_nodes t) r = None /\ ch <> []).
  { clear x n ch Hx E Hch. induction 1 as [x Hx|x y ch Hy IH Hk]; intros n E.
    - apply in_split in Hx as (s1 & s2 & El).
      assert (Hs : In (None, s1 ++ x :: s2) (sibling_lists l)) by (left; rewrite El; auto).
      destruct (Direct.nav F ops t l H _ _ _ _ _ Hs E) as (A & _).
      split. { intros z [<-|[]]. apply TreeRep.preorder_list_top. rewrite El. apply in_app_iff; simpl; auto. }
      split. { intros z [<-|[]]. auto. }
      split. { repeat constructor. simpl; auto. }
      exists n. simpl. repeat split; auto. congruence.
    - pose proof (Nav.ancestry_in l _ _ Hy) as Hyp. destruct (Direct.get_some F ops t l H y Hyp) as [m Em].
      destruct (IH m Em) as (I1 & I2 & I3 & r & I4 & I5 & I6).
      pose proof (TreeRep.kids_sibling_list _ _ Hyp) as Hs.
      pose proof Hk as Hk'. apply in_split in Hk' as (s1 & s2 & Ek). rewrite Ek in Hs.
      destruct (Direct.nav F ops t l H _ _ _ _ _ Hs E) as (A & _). simpl in A. rewrite Em in A.
      assert (Hsz : Walk.size x < Walk.size y).
      { clear - Hk. destruct y as [? ? ? ? kids]. unfold Walk.size. simpl. simpl in Hk.
        apply in_split in Hk as (a & b & ->). rewrite flat_map_app, app_length. simpl. rewrite app_length. lia. }
      split. { intros z [<-|Hz]; auto. eapply TreeRep.preorder_list_kid; eauto. }
      split. { intros z [<-|Hz]; auto. specialize (I2 _ Hz). lia. }
      split. { constructor; auto. intros Hin. specialize (I2 _ Hin). lia. }
      exists r. repeat split; auto; [|congruence]. destruct ch as [|c ch]; [congruence|].
      cbn [length pred] in *. cbn [climb]. rewrite A. auto. }
  destruct (G _ _ Hch _ E) as (I1 & _ & I3 & r & I4 & I5 & I6).
  assert (Hlen : length ch <= length (t_nodes t)).
  { rewrite (TreeRep.tr_length _ _ Hrep). apply NoDup_incl_length; auto. }
  exists (pred (length ch)), r. destruct ch as [|c ch]; [congruence|]. cbn [length pred] in *.
  repeat split; auto.
  revert I4 I5. clear. generalize (length ch) as k. intros k. revert n. induction k as [|k IH]; intros n E1 E2.
  - simpl in *. injection E1 as ->. rewrite E2. auto.
  - simpl in E1. cbn [climb]. destruct (node_parent (t_nodes t) n) as [m|]; auto. apply IH; auto.
Qed.
Print Assumptions C07_climbs.

(** ** C08 *)

(** [a.next()] is [b] iff [b.prev()] is [a]; and then both have the same parent. *)
Theorem C08_mutual : forall T F (ops : list (op T)) t l i j a b,
  finished F ops t l -> tree_get t i = Some a -> tree_get t j = Some b ->
  (node_next (t_nodes t) a = Some b <-> node_prev (t_nodes t) b = Some a) /\
  (node_next (t_nodes t) a = Some b -> node_parent (t_nodes t) a = node_parent (t_nodes t) b /\ i < j).
Proof.
  intros T F ops t l i j a b H Ea Eb. pose proof (WalkThms.fin_rep F ops t l H) as Hrep.
  destruct (Direct.get_rose F ops t l H _ _ Ea) as (x & Hx & <-).
  destruct (Direct.get_rose F ops t l H _ _ Eb) as (y & Hy & <-).
  destruct (TreeRep.in_sibling_lists _ _ Hx) as (p & s1 & s2 & Hs).
  destruct (TreeRep.in_sibling_lists _ _ Hy) as (p' & s1' & s2' & Hs').
  destruct (Direct.nav F ops t l H _ _ _ _ _ Hs Ea) as (A1 & A2 & A3 & _).
  destruct (Direct.nav F ops t l H _ _ _ _ _ Hs' Eb) as (B1 & B2 & B3 & _).
  assert (I2 : forall z, hd_error s2 = Some z -> In z (preorder_list l)).
  { intros z Hz. destruct s2 as [|w s2]; [discriminate|]. injection Hz as <-. apply (TreeRep.sibling_list_in l _ _ w Hs).
    apply in_app_iff. simpl; auto. }
  assert (I1' : forall z, last_error s1' = Some z -> In z (preorder_list l)).
  { intros z Hz. apply (TreeRep.sibling_list_in l _ _ z Hs'). apply in_app_iff. left. apply Nav.last_error_in; auto. }
  assert (Hn : node_next (t_nodes t) a = Some b <-> hd_error s2 = Some y).
  { rewrite A3. apply (Direct.nd_some F ops t l H); auto. }
  assert (Hp : node_prev (t_nodes t) b = Some a <-> last_error s1' = Some x).
  { rewrite B2. apply (Direct.nd_some F ops t l H); auto. }
  assert (Hpar : node_next (t_nodes t) a = Some b -> exists s3, s2 = y :: s3 /\ p = p' /\ s1' = s1 ++ [x] /\ s2' = s3).
  { rewrite Hn. destruct s2 as [|z s3]; [discriminate|]. intros E. injection E as ->. exists s3. split; auto.
    assert (Hs2 : In (p, (s1 ++ [x]) ++ y :: s3) (sibling_lists l)) by (rewrite <- app_assoc; auto).
    pose proof (Direct.same_list F ops t l H _ _ _ _ _ _ _ Hs2 Hs') as <-.
    pose proof (Direct.list_of l _ _ _ Hs2 Hs') as El. split; auto.
    pose proof (Nav.nodup_r_id t l Hrep _ _ Hs2) as Hd. clear - El Hd.
    revert El Hd. generalize (s1 ++ [x]) as q. intros q. revert s1'. induction q as [|u q IH]; intros [|u' s1'] El Hd; simpl in *.
    - injection El as ->. auto.
    - injection El as <- ->. exfalso. inversion Hd; subst. apply H1. rewrite map_app. apply in_app_iff. simpl; auto.
    - injection El as -> <-. exfalso. inversion Hd; subst. apply H1. rewrite map_app. apply in_app_iff. simpl; auto.
    - injection El as -> El. inversion Hd; subst. destruct (IH _ El H2) as [-> ->]. auto. }
  split.
  - split.
    + intros E. destruct (Hpar E) as (s3 & -> & -> & -> & ->). rewrite Hp. apply Nav.last_error_snoc.
    + rewrite Hp. intros E. rewrite Hn. destruct s1' as [|z s1' _] using rev_ind; [discriminate|].
      rewrite Nav.last_error_snoc in E. injection E as ->.
      assert (Hs2 : In (p', s1' ++ x :: (y :: s2')) (sibling_lists l)) by (rewrite <- app_assoc in Hs'; auto).
      pose proof (Direct.same_list F ops t l H _ _ _ _ _ _ _ Hs Hs2) as <-.
      destruct (Direct.nav F ops t l H _ _ _ _ _ Hs2 Ea) as (_ & _ & A3' & _).
      rewrite <- Hn. rewrite A3'. simpl. auto.
  - intros E. destruct (Hpar E) as (s3 & -> & -> & -> & ->). split; [congruence|].
    assert (Hu : Order.up (s1 ++ x :: y :: s3)) by (eapply Order.document_up; eauto; apply H).
    unfold Order.up in Hu. rewrite map_app in Hu. apply Order.sorted_app in Hu as [_ Hu]. simpl in Hu.
    inversion Hu; subst. inversion H3; auto.
Qed.
Print Assumptions C08_mutual.

(** The ends: [n.first()] is the first child yielded and has no [prev()]; a node has no [prev()] iff it is the first
    of its siblings and no [next()] iff it is the last of them. *)
Theorem C08_ends : forall T F (ops : list (op T)) t l i n,
  finished F ops t l -> tree_get t i = Some n ->
  exists items c,
    match node_parent (t_nodes t) n with
    | Some p => c = node_children p /\ node_first (t_nodes t) p = hd_error items
    | None => c = tree_children t /\ tree_first t = hd_error items
    end /\
    enumerates (total (children_next (t_nodes t))) c items /\ In n items /\
    (node_prev (t_nodes t) n = None <-> hd_error items = Some n) /\
    (node_next (t_nodes t) n = None <-> last_error items = Some n).
Proof.
  intros T F ops t l i n H E. pose proof (WalkThms.fin_rep F ops t l H) as Hrep.
  destruct (Direct.get_rose F ops t l H _ _ E) as (x & Hx & <-).
  destruct (TreeRep.in_sibling_lists _ _ Hx) as (p & s1 & s2 & Hs).
  destruct (Direct.nav F ops t l H _ _ _ _ _ Hs E) as (A1 & A2 & A3 & _).
  assert (HC : exists c, match Direct.nd t p with
     | Some q => c = node_children q /\ node_first (t_nodes t) q = Direct.nd t (hd_error (s1 ++ x :: s2))
     | None => c = tree_children t /\ tree_first t = Direct.nd t (hd_error (s1 ++ x :: s2))
     end /\ Nav.is_children c p (s1 ++ x :: s2)).
  { destruct p as [y|]; simpl.
    - pose proof (Nav.parent_in l _ _ Hs y eq_refl) as Hy.
      destruct (Direct.get_some F ops t l H y Hy) as [m Em]. rewrite Em.
      pose proof (Direct.list_of l _ _ _ Hs (TreeRep.kids_sibling_list _ _ Hy)) as Ek. rewrite Ek.
      eexists. split; [split; [reflexivity|]|].
      + destruct (TreeRep.in_sibling_lists _ _ Hy) as (q & u1 & u2 & Hu).
        apply (Direct.nav F ops t l H _ _ _ _ _ Hu Em).
      + apply (Nav.node_children_is t l Hrep); auto.
    - pose proof (Direct.list_of l _ _ _ Hs (or_introl eq_refl)) as <-.
      eexists. split; [split; [reflexivity|]|].
      + unfold tree_first. rewrite (TreeRep.tr_first _ _ Hrep), Nav.hd_error_id. destruct (hd_error (s1 ++ x :: s2)); auto.
      + apply (Nav.tree_children_is t _ Hrep). }
  destruct HC as (c & HC & Hc).
  destruct (Nav.children_thm t l Hrep _ _ _ Hs Hc) as (items & He & HF).
  assert (HF' : map Some items = map (fun x => tree_get t (r_id x)) (s1 ++ x :: s2)).
  { clear - HF. induction HF as [|m y items s [G _] _ IH]; simpl; auto. unfold tree_get at 1. rewrite G, IH. auto. }
  assert (Hhd : hd_error items = Direct.nd t (hd_error (s1 ++ x :: s2))).
  { destruct items, (s1 ++ x :: s2); try discriminate; auto. simpl in *. congruence. }
  assert (Hla : last_error items = Direct.nd t (last_error (s1 ++ x :: s2))).
  { clear - HF'. revert HF'. generalize (s1 ++ x :: s2) as s. intros s. revert s.
    induction items as [|m items IH]; intros [|y s] E; try discriminate; auto. simpl in E. injection E as E1 E2.
    destruct items as [|m' items], s as [|y' s]; try discriminate.
    - simpl. auto.
    - change (last_error (m' :: items) = Direct.nd t (last_error (y' :: s))). auto. }
  assert (Hin : forall z, In z (s1 ++ x :: s2) -> In z (preorder_list l)).
  { intros z Hz. eapply TreeRep.sibling_list_in; eauto. }
  exists items, c. rewrite A1, Hhd. split; [destruct (Direct.nd t p); tauto|]. split; auto. split.
  { assert (In (Some n) (map Some items)) as Hi.
    { rewrite HF'. apply in_map_iff. exists x. split; auto. apply in_app_iff. simpl; auto. }
    apply in_map_iff in Hi as (m & Em & Hm). congruence. }
  rewrite A2, A3, Hla. pose proof (Nav.nodup_r_id t l Hrep _ _ Hs) as Hd. split.
  - rewrite (Direct.nd_none F ops t l H), (Direct.nd_some F ops t l H _ x n); auto.
    + destruct s1 as [|z s1 _] using rev_ind; [simpl; tauto|]. rewrite Nav.last_error_snoc.
      split; [discriminate|]. intros G. exfalso. rewrite <- app_assoc in G, Hd. simpl in G, Hd.
      destruct s1 as [|w s1]; simpl in G, Hd; injection G as ->; inversion Hd; subst.
      * apply H2. simpl; auto.
      * apply H2. rewrite map_app. apply in_app_iff. simpl. auto.
    + intros z Hz. apply Hin. destruct (s1 ++ x :: s2); [discriminate|]. injection Hz as ->. simpl; auto.
    + intros z Hz. apply Hin. apply in_app_iff. left. apply Nav.last_error_in; auto.
  - rewrite (Direct.nd_none F ops t l H), (Direct.nd_some F ops t l H _ x n); auto.
    + destruct s2 as [|z s2 _] using rev_ind; [rewrite Nav.last_error_snoc; simpl; tauto|].
      replace (s1 ++ x :: s2 ++ [z]) with ((s1 ++ x :: s2) ++ [z]) in * by (rewrite <- app_assoc; auto).
      rewrite Nav.last_error_snoc.
      split; [destruct s2; discriminate|]. intros G. exfalso. injection G as ->.
      rewrite map_app in Hd. apply Rep.NoDup_app_iff in Hd as (_ & _ & Hd). apply (Hd (r_id x)); simpl; auto.
      rewrite map_app. apply in_app_iff. simpl; auto.
    + intros z Hz. apply Hin. apply Nav.last_error_in; auto.
    + intros z Hz. apply Hin. apply in_app_iff. right. right. destruct s2; [discriminate|]. injection Hz as ->. simpl; auto.
Qed.
Print Assumptions C08_ends.

(** ** C09 and C24, the whole law *)

(** [last()] and [rev()], whether or not a [close_at] wrapped the last sibling: both see the list [s'] of [sees], and
    [last()] and the first answer of [rev()] are right exactly when the list is settled. *)
Theorem C09_law_partial : forall T F (ops : list (op T)) t l,
  finished F ops t l ->
  (exists s', sees None l s' /\
     answers (tree_last t) (last_error s') /\
     enumerates_nodes (total (children_next_back (t_nodes t))) (tree_children t) (rev s')) /\
  (forall x n, In x (preorder_list l) -> tree_get t (r_id x) = Some n ->
     exists s', sees (Some x) (r_kids x) s' /\
       answers (node_last (t_nodes t) n) (last_error s') /\
       enumerates_nodes (total (children_next_back (t_nodes t))) (node_children n) (rev s')).
Proof.
  intros T F ops t l H. pose proof (WalkThms.fin_rep F ops t l H) as Hr.
  assert (G : forall c p s, In (p, s) (sibling_lists l) -> Nav.is_children c p s ->
     exists s', sees p s s' /\ answers (node_opt (t_nodes t) (Nav.stored_last p s)) (last_error s') /\
       enumerates_nodes (total (children_next_back (t_nodes t))) c (rev s')).
  { intros c p s Hs Hc. destruct (Stale.sees_exists p s) as [s' Hse]. exists s'. split; auto. split.
    - rewrite (Stale.stored_sees _ _ _ (Nav.nodup_siblings t l Hr _ _ Hs) Hse).
      apply (Nav.answers_opt t l Hr); [apply Nav.last_error_id|]. intros y Hy.
      destruct (Stale.sees_list l _ _ _ _ Hs Hse) as [q Hq]. eapply TreeRep.sibling_list_in; eauto.
      apply Nav.last_error_in; auto.
    - eapply WalkGen.enum_rel_map; [|eapply (Stale.rev_enum t l Hr); eauto]. intros a b [_ E]. auto. }
  split.
  - destruct (G _ None l (or_introl eq_refl) (Nav.tree_children_is t l Hr)) as (s' & H1 & H2 & H3).
    exists s'. split; auto. split; auto. unfold tree_last. rewrite (TreeRep.tr_last _ _ Hr). auto.
  - intros x n Hx E. destruct (G _ _ _ (TreeRep.kids_sibling_list _ _ Hx) (Nav.node_children_is t l Hr x n Hx E))
      as (s' & H1 & H2 & H3).
    exists s'. split; auto. split; auto.
    destruct (TreeRep.in_sibling_lists _ _ Hx) as (p & s1 & s2 & Hsl).
    rewrite (Nav.at_node t l Hr _ _ _ _ _ Hsl E). auto.
Qed.
Print Assumptions C09_law_partial.

(** Every schedule of [next()] and [next_back()]: on a settled list the answers are those of a queue with two ends; on
    any other the two ends walk two different lists, [children()] in front and what [rev()] sees at the back,
    until one of them runs out. *)
Theorem C24_law_partial : forall T F (ops : list (op T)) t l c p s s' sched,
  finished F ops t l -> In (p, s) (sibling_lists l) -> sees p s s' ->
  match p with
  | None => c = tree_children t
  | Some x => exists n, tree_get t (r_id x) = Some n /\ c = node_children n
  end ->
  exists items,
    drive (total (children_next (t_nodes t))) (total (children_next_back (t_nodes t))) sched c = Ok items /\
    (settled p s -> map (option_map view) items = map (option_map rview) (deque sched s)) /\
    (~ settled p s -> map (option_map view) items = map (option_map rview) (two_ended sched s s')).
Proof.
  intros T F ops t l c p s s' sched H Hs Hse Hc. pose proof (WalkThms.fin_rep F ops t l H) as Hr.
  assert (Hc' : Nav.is_children c p s).
  { destruct p as [x|].
    - destruct Hc as (n & E & ->). pose proof (Nav.parent_in l _ _ Hs x eq_refl) as Hx.
      rewrite (Direct.list_of l _ _ _ Hs (TreeRep.kids_sibling_list _ _ Hx)). apply (Nav.node_children_is t l Hr); auto.
    - subst c. rewrite (Direct.list_of l _ _ _ Hs (or_introl eq_refl)). apply (Nav.tree_children_is t l Hr). }
  destruct (Stale.settled_dec p s) as [Hset|Hu].
  - pose proof (proj1 (Nav.settled_fresh t l Hr p s Hs) Hset) as Hf.
    destruct (Nav.children_deque t l Hr sched _ _ _ _ _ (Nav.is_children_holds l c p s Hs Hc' Hf)) as (it & E & Hv).
    exists it. split; auto. split; auto. tauto.
  - destruct (Stale.stale_drive t l Hr c p s s' sched Hs Hc' Hse Hu) as (it & E & Hv).
    exists it. split; auto. split; auto. tauto.
Qed.
Print Assumptions C24_law_partial.

(** C24 holds of a list of children exactly when the list is settled. *)
Theorem C24_exact_partial : forall T F (ops : list (op T)) t l c p s,
  finished F ops t l -> In (p, s) (sibling_lists l) ->
  match p with
  | None => c = tree_children t
  | Some x => exists n, tree_get t (r_id x) = Some n /\ c = node_children n
  end ->
  ((forall sched, exists items,
      drive (total (children_next (t_nodes t))) (total (children_next_back (t_nodes t))) sched c = Ok items /\
      map (option_map view) items = map (option_map rview) (deque sched s)) <-> settled p s).
Proof.
  intros T F ops t l c p s H Hs Hc. pose proof (WalkThms.fin_rep F ops t l H) as Hr.
  destruct (Stale.sees_exists p s) as [s' Hse]. split.
  - intros G. destruct (Stale.settled_dec p s) as [Hset|Hu]; auto. exfalso.
    destruct (G [false]) as (it & E & Hv).
    destruct (C24_law_partial T F ops t l c p s s' [false] H Hs Hse Hc) as (it' & E' & _ & Hv').
    rewrite E in E'. injection E' as <-. specialize (Hv' Hu). rewrite Hv in Hv'. clear Hv E it.
    pose proof (Nav.nodup_siblings t l Hr _ _ Hs) as Hd.
    destruct s as [|x0 s0]; [apply Hu; exact I|].
    pose proof (Stale.sees_nonempty _ _ _ Hse ltac:(congruence)) as Hne.
    destruct (last_error (x0 :: s0)) as [x|] eqn:Ex;
      [|destruct s0 as [|u s0 _] using rev_ind; [discriminate|];
        change (x0 :: s0 ++ [u]) with ((x0 :: s0) ++ [u]) in Ex; rewrite Nav.last_error_snoc in Ex; discriminate].
    destruct s' as [|y s' _] using rev_ind; [congruence|].
    pose proof (Nav.last_error_snoc s' y) as Ey.
    apply (Stale.sees_last _ _ _ x y Hd Hse Hu Ex Ey).
    cbn [deque two_ended] in Hv'. rewrite Ex, Ey in Hv'. cbn [map option_map] in Hv'. unfold rview in Hv'. congruence.
  - intros Hset sched. destruct (C24_law_partial T F ops t l c p s s' sched H Hs Hse Hc) as (it & E & Hv & _). eauto.
Qed.
Print Assumptions C24_exact_partial.

(** The law at work: [checkpoint; token 1; token 2; close_at 3]: the tree has one root, the wrapper, but its back end sees
    the two tokens. *)
Example C09_law_inhabited : exists (ops : list (op nat)) t l,
  finished flavor_default ops t l /\ ~ settled None l /\ sees None l (flat_map r_kids l) /\
  length l = 1 /\ length (flat_map r_kids l) = 2.
Proof.
  set (ops := [OCheckpoint; OToken 1 1; OToken 2 1; OCloseAt 0 3] : list (op nat)).
  set (t := match build (w_builder (run_world flavor_default ops)) with Ok t => t | _ => tree_new end).
  exists ops, t, [Nd 2 KWrap 3 (Span 0 2) [Nd 0 KLeaf 1 (Span 0 1) []; Nd 1 KLeaf 2 (Span 1 2) []]].
  split; [compute_finished|]. split; [vm_compute; discriminate|].
  split; [|vm_compute; auto].
  eapply sees_inside; [reflexivity|vm_compute; discriminate|].
  apply sees_here. vm_compute. auto.
Qed.

(** C07 and C08 at work on the demo tree (Demo.v): node 1 and its next sibling, the wrapper 4. *)
Example C07_inhabited : finished flavor_default demo_ops demo_tree demo_doc /\
  exists n a b, tree_get demo_tree 0 = Some n /\ tree_get demo_tree 1 = Some a /\ tree_get demo_tree 4 = Some b /\
    node_next (t_nodes demo_tree) a = Some b /\ node_parent (t_nodes demo_tree) a = Some n /\
    node_parent (t_nodes demo_tree) n = None.
Proof.
  split; [apply demo_finished|]. do 3 eexists. repeat (split; [vm_compute; reflexivity|]). vm_compute. reflexivity.
Qed.
